(** KMode with more clusters than rows; KMedoid. *)
From Coq Require Import Permutation.
From Verif Require Import Base Res Cluster ClusterSpec ClusterLemmas ClusterModes WalkLemmas.
Local Open Scope Z_scope.

Lemma draw_new rnd fuel : forall c seen n r c', (forall c, rnd c n < n)%nat -> draw rnd fuel c seen n = Ok (r, c') -> (r < n)%nat /\ ~ In r seen.
Proof.
  induction fuel as [|f IH]; intros c seen n r c' Hr E; cbn [draw] in E; [discriminate|].
  destruct (Nat.eqb n 0); [discriminate|]. destruct (memn (rnd c n) seen) eqn:Em; [eauto|].
  injection E as <- <-. apply memn_false in Em. auto.
Qed.

Lemma NoDup_bound (l : list nat) n : NoDup l -> (forall x, In x l -> (x < n)%nat) -> (length l <= n)%nat.
Proof.
  intros Hn Hl. rewrite <- (seq_length n 0). apply NoDup_incl_length; auto. intros x Hx. apply in_seq. specialize (Hl x Hx). lia.
Qed.

Lemma kMode_enough rnd fuel k data C : (forall c, rnd c (length data) < length data)%nat -> kMode rnd fuel k data = Ok C -> (k <= length data)%nat.
Proof.
  intros Hr E. unfold kMode in E. apply bind_ok in E as ((((c, seen), chk), M) & E & _).
  assert (G : forall l st c seen chk M, foldr_ (forgy rnd fuel data) l st = Ok (c, seen, chk, M) ->
    let '(_, seen0, _, _) := st in NoDup seen0 -> (forall x, In x seen0 -> (x < length data)%nat) ->
    NoDup seen /\ (forall x, In x seen -> (x < length data)%nat) /\ length seen = (length seen0 + length l)%nat).
  { clear E c seen chk M. induction l as [|i l IH]; intros (((c0, seen0), chk0), M0) c seen chk M E; cbn [foldr_] in E.
    - injection E as <- <- <- <-. intros; split; [auto|split; [auto|simpl; lia]].
    - apply bind_ok in E as ((((c1, seen1), chk1), M1) & E1 & E). specialize (IH _ _ _ _ _ E). cbn zeta in IH. intros N0 B0.
      unfold forgy in E1. apply bind_ok in E1 as ((r, c2) & Ed & E1). apply draw_new in Ed as [Rn Rs]; auto.
      apply bind_ok in E1 as (row & _ & E1). apply bind_ok in E1 as (cl & _ & E1). apply bind_ok in E1 as (M2 & _ & E1).
      cbn [fst snd] in E1. injection E1 as <- <- <- <-. destruct IH as (A1 & A2 & A3).
      + constructor; auto.
      + intros x [<-|Hx]; auto.
      + split; auto. split; auto. cbn [length] in *. lia. }
  apply G in E. destruct E as (A1 & A2 & A3); [constructor|intros ? []|]. rewrite seq_length in A3. simpl in A3.
  rewrite <- A3. apply NoDup_bound; auto.
Qed.

Lemma kMode_stuck_l rnd fuel k m data : rectangular m data -> data <> [] -> (forall c, rnd c (length data) < length data)%nat ->
  (length data < k)%nat -> kMode rnd fuel k data = Fuel.
Proof.
  intros Hd Hn Hr Hk. pose proof (kMode_safe_l rnd fuel k m data Hd Hn ltac:(lia) Hr) as NP.
  destruct (kMode rnd fuel k data) as [C| |] eqn:E; auto; [|congruence]. apply kMode_enough in E; auto. lia.
Qed.

(** ** KMedoid *)
Section Medoids.
Variable rnd : nat -> nat -> nat.
Variable ord : rowmap -> rowmap.
Variable data : list (list Z).
Variable m : nat.
Variable k : nat.

Lemma kMedoid_l fuel C : kMedoid rnd ord fuel k data = Ok C ->
  partitions k data C /\ exists centres, length centres = k /\ nearest_centre centres C.
Proof.
  unfold kMedoid. intros E. apply bind_ok in E as (((((go, c), seen), chk), M) & _ & E). apply bind_ok in E as ((chk', M') & E1 & E).
  cbn [fst] in E. apply collect_l in E as (P & R). split; auto.
  set (cen := fun j => match medoid M' (Z.of_nat j) with Ok x => x | _ => [] end).
  exists (map cen (seq 0 k)). split; [rewrite map_length, seq_length; auto|].
  intros c1 c2 cl i row m1 m2 Hc Hi Hm Hm'. destruct (R _ _ _ _ Hc Hi) as (Hrow & Ha).
  assert (Hi' : (i < length data)%nat) by (apply nth_error_Some; congruence).
  assert (Lc : (c1 < k)%nat) by (destruct P as [<- _]; apply nth_error_Some; congruence).
  apply converge_near with (j := i) in E1; auto; [|lia|intros j Hj; exfalso; eapply recent0; eauto].
  destruct E1 as (row' & v & d & Hr & Hv & Hd & Hmin). rewrite Hrow in Hr. injection Hr as <-.
  unfold assigned in Ha. rewrite Hv in Ha. subst v.
  assert (Hs : forall c x, nth_error (map cen (seq 0 k)) c = Some x -> (c < k)%nat /\ x = cen c).
  { intros c0 m0 H. assert (c0 < k)%nat by (rewrite <- (seq_length k 0), <- (map_length cen); apply nth_error_Some; congruence).
    split; auto. erewrite map_nth_error in H; [injection H as <-; reflexivity|]. rewrite (nth_error_nth' _ 0%nat) by (rewrite seq_length; auto).
    rewrite seq_nth; auto. }
  apply Hs in Hm as (_ & ->). apply Hs in Hm' as (L2 & ->). destruct (Hmin c2 L2) as (t & Ht & Le).
  apply bind_ok in Hd as (x1 & Ex1 & Hd). apply bind_ok in Ht as (x2 & Ex2 & Ht).
  unfold cen. rewrite Ex1, Ex2. apply hamming_l in Hd, Ht. lia.
Qed.

Hypothesis perm : forall cl, Permutation (ord cl) cl.
Hypothesis Hd : forall row, In row data -> length row = m.

Definition rows_ok (cl : rowmap) : Prop := forall e, In e cl -> length (snd e) = m.
Record goodM (k' : nat) (M : medoids) : Prop := {
  g_cl : length (mclusters M) = k';
  g_mn : length (mmeans M) = k';
  g_rows : forall cl, In cl (mclusters M) -> rows_ok cl }.

Lemma rget_len cl r : rows_ok cl -> (length (rget cl r) <= m)%nat.
Proof.
  intros H. unfold rget. destruct (find _ cl) as [e|] eqn:E; simpl; [|lia]. apply find_some in E as [E _]. rewrite (H e E). auto.
Qed.
Lemma rows_ord cl : rows_ok cl -> rows_ok (ord cl).
Proof. intros H e He. apply H. eapply Permutation_in; [apply perm|auto]. Qed.
Lemma rows_del cl i : rows_ok cl -> rows_ok (rdel cl i).
Proof. intros H e He. apply filter_In in He as [He _]. auto. Qed.
Lemma rows_put cl i v : rows_ok cl -> length v = m -> rows_ok (rput cl i v).
Proof. intros H Hv e He. apply in_app_iff in He as [He|[<-|[]]]; auto. eapply rows_del; eauto. Qed.

Lemma goodM_set k' M w cl mn : goodM k' M -> rows_ok cl -> length mn = k' -> goodM k' (mkMed (set_nth w cl (mclusters M)) mn).
Proof.
  intros [G1 G2 G3] H1 H2. constructor; cbn [mclusters mmeans]; auto; [rewrite set_nth_length; auto|].
  intros c Hc. apply In_nth_error in Hc as (j & Hj). apply nth_set in Hj as [(_ & ->)|(_ & Hj)]; auto. apply G3. eapply nth_error_In; eauto.
Qed.

Lemma insert_l k' M w v i : goodM k' M -> 0 <= w < Z.of_nat k' -> length v = m ->
  exists M', kMedoidInsert ord w v i M = Ok M' /\ goodM k' M' /\
    (mmeans M' = mmeans M \/ mmeans M' = set_nth (Z.to_nat w) i (mmeans M)).
Proof.
  intros G Hw Hv. unfold kMedoidInsert. pose proof G as [G1 G2 G3].
  destruct (idxZ_ok (mclusters M) w ltac:(lia)) as (cl & -> & Ecl). cbn [bind].
  destruct (idxZ_ok (mmeans M) w ltac:(lia)) as (r & -> & Er). cbn [bind].
  assert (Rc : rows_ok (rput cl i v)) by (apply rows_put; auto; apply G3; eapply nth_error_In; eauto).
  destruct (foldr_app_ok (fun (s : Z * Z) e => a <- hamming (rget (rput cl i v) r) (snd e); b <- hamming v (snd e); Ok (fst s + a, snd s + b)) (fun _ => True) (ord (rput cl i v)) (0, 0) Logic.I) as (s & -> & _).
  - intros s e _ He. pose proof (rows_ord _ Rc e He) as Le. pose proof (rget_len _ r Rc).
    destruct (hamming_total (rget (rput cl i v) r) (snd e) ltac:(lia)) as (a & -> & _). cbn [bind].
    destruct (hamming_total v (snd e) ltac:(lia)) as (b & -> & _). cbn [bind]. eauto.
  - cbn [bind]. eexists. split; [reflexivity|]. cbn [mmeans]. split; [|destruct (snd s <? fst s); auto].
    apply goodM_set; auto. destruct (snd s <? fst s); rewrite ?set_nth_length; auto.
Qed.

Lemma remove_l k' M w v i : goodM k' M -> 0 <= w < Z.of_nat k' -> exists M', kMedoidRemove ord w v i M = Ok M' /\ goodM k' M'.
Proof.
  intros G Hw. unfold kMedoidRemove. pose proof G as [G1 G2 G3].
  destruct (idxZ_ok (mclusters M) w ltac:(lia)) as (cl & -> & Ecl). cbn [bind].
  destruct (idxZ_ok (mmeans M) w ltac:(lia)) as (r & -> & Er). cbn [bind].
  assert (Rc : rows_ok (rdel cl i)) by (apply rows_del; auto; apply G3; eapply nth_error_In; eauto).
  assert (F : exists st, (if Nat.eqb r i then foldr_ (fun (st : Z * nat) e =>
             s <- foldr_ (fun s e' => d <- hamming (snd e') (snd e); Ok (s + d)) (ord (rdel cl i)) 0;
             Ok (if s <? fst st then (s, fst e) else st)) (ord (rdel cl i)) (2000000000, r) else Ok (0, r)) = Ok st).
  { destruct (Nat.eqb r i); eauto.
    match goal with |- exists st, foldr_ ?g _ ?s0 = _ => destruct (foldr_app_ok g (fun _ => True) (ord (rdel cl i)) s0 Logic.I) as (s & -> & _) end; eauto.
    intros st e _ He. pose proof (rows_ord _ Rc e He) as Le.
    match goal with |- context [foldr_ ?g _ 0] => destruct (foldr_app_ok g (fun _ => True) (ord (rdel cl i)) 0 Logic.I) as (s & -> & _) end.
    - intros s e' _ He'. pose proof (rows_ord _ Rc e' He') as Le'. destruct (hamming_total (snd e') (snd e) ltac:(lia)) as (d & -> & _). cbn [bind]. eauto.
    - cbn [bind]. eauto. }
  destruct F as (st & ->). cbn [bind]. eexists. split; [reflexivity|]. apply goodM_set; auto. rewrite set_nth_length; auto.
Qed.

(** Comparing rows. *)
Lemma rows_equal row other : length row = length other ->
  exists b, foldi (fun j (ok : bool) x => if ok then y <- idx other j; Ok (x =? y) else Ok false) row true = Ok b /\ (b = true <-> row = other).
Proof.
  unfold foldi.
  assert (G : forall row i o ok, (forall j, nth_error other (i + j) = nth_error o j) -> length row = length o ->
    exists b, foldi_from i (fun j (ok : bool) x => if ok then y <- idx other j; Ok (x =? y) else Ok false) row ok = Ok b /\ (b = true <-> ok = true /\ row = o)).
  { clear row. induction row as [|x row IH]; intros i o ok Ho L; cbn [foldi_from].
    - destruct o; [|discriminate]. exists ok. split; auto. tauto.
    - destruct o as [|y o]; [discriminate|]. simpl in L. injection L as L. pose proof (Ho 0%nat) as H0. rewrite Nat.add_0_r in H0. simpl in H0.
      assert (Ho' : forall j, nth_error other (i + 1 + j) = nth_error o j) by (intros j; rewrite <- Nat.add_assoc; apply (Ho (S j))).
      destruct ok.
      + unfold idx. rewrite H0. cbn [bind]. destruct (IH (i + 1)%nat o (x =? y) Ho' L) as (b & E & Hb). exists b. split; [exact E|].
        rewrite Hb, Z.eqb_eq. split; [intros [-> ->]; auto|intros [_ E']; injection E' as -> ->; auto].
      + cbn [bind]. destruct (IH (i + 1)%nat o false Ho' L) as (b & E & Hb). exists b. split; [exact E|]. rewrite Hb. split; intros [? _]; discriminate. }
  intros L. destruct (G row 0%nat other true) as (b & E & Hb); auto. exists b. split; auto. rewrite Hb. tauto.
Qed.

Lemma sameAs_l r M : (r < length data)%nat -> (forall x, In x M -> (x < length data)%nat) ->
  exists b, sameAs data r M = Ok b /\ (b = true <-> exists x, In x M /\ nth_error data x = nth_error data r).
Proof.
  intros Hr HM. unfold sameAs. destruct (idx_ok data r Hr) as (row & -> & Er). cbn [bind].
  set (f := fun (ok : bool) m0 => if ok then Ok true else other <- idx data m0;
    foldi (fun j (ok : bool) x => if ok then y <- idx other j; Ok (x =? y) else Ok false) row true).
  assert (G : forall l ok, (forall x, In x l -> In x M) -> exists b, foldr_ f l ok = Ok b /\ (b = true <-> ok = true \/ exists x, In x l /\ nth_error data x = nth_error data r)).
  { induction l as [|x l IH]; intros ok Hl; cbn [foldr_].
    - exists ok. split; auto. split; auto. intros [H|(x & [] & _)]; auto.
    - destruct ok; unfold f at 1.
      + cbn [bind]. destruct (IH true ltac:(intros; apply Hl; right; auto)) as (b & -> & Hb). exists b. split; auto. rewrite Hb. tauto.
      + destruct (idx_ok data x (HM x (Hl x (or_introl eq_refl)))) as (other & -> & Eo). cbn [bind].
        destruct (rows_equal row other) as (b1 & E1 & H1).
        { rewrite (Hd row), (Hd other); auto; eapply nth_error_In; eauto. }
        rewrite E1. cbn [bind]. destruct (IH b1 ltac:(intros; apply Hl; right; auto)) as (b & -> & Hb). exists b. split; auto. rewrite Hb, H1.
        split.
        * intros [->|(y & Hy & E)]; right; [exists x; split; [left; auto|congruence]|exists y; split; [right; auto|auto]].
        * intros [H|(y & [<-|Hy] & E)]; [discriminate| |right; eauto]. left. rewrite Eo, Er in E. congruence. }
  destruct (G M false ltac:(auto)) as (b & E & Hb). exists b. split; auto. rewrite Hb. split; [intros [H|H]; [discriminate|auto]|auto].
Qed.

Hypothesis Hr : forall c, (rnd c (length data) < length data)%nat.

(** The rows seen so far equal medoids; the medoids are different rows. *)
Record started (M seen : list nat) : Prop := {
  st_nodup : NoDup seen;
  st_bound : forall x, In x seen -> (x < length data)%nat;
  st_med : forall x, In x M -> In x seen;
  st_seen : forall x, In x seen -> exists y, In y M /\ nth_error data y = nth_error data x;
  st_diff : NoDup (map (fun x => nth_error data x) M) }.

Lemma drawNew_l : forall fuel c seen M, started M seen ->
  drawNew rnd fuel c seen data M = Fuel \/
  (exists c' seen', drawNew rnd fuel c seen data M = Ok (None, c', seen') /\ started M seen' /\ (length data <= length seen')%nat) \/
  (exists r c' seen', drawNew rnd fuel c seen data M = Ok (Some r, c', seen') /\ (r < length data)%nat /\ started (M ++ [r]) seen').
Proof.
  induction fuel as [|f IH]; intros c seen M St; cbn [drawNew]; destruct (Nat.ltb_spec (length seen) (length data)) as [L|L]; auto.
  - right. left. eauto.
  - destruct (draw_safe rnd (S f) c seen (length data) ltac:(lia) Hr) as [->|(r & c' & -> & Rn & Rs)]; auto. cbn [bind fst snd].
    destruct St as [S1 S2 S3 S4 S5].
    destruct (sameAs_l r M Rn ltac:(auto)) as (b & -> & Hb). cbn [bind]. destruct b.
    + apply IH. destruct (proj1 Hb eq_refl) as (y & Hy & Ey). constructor; auto.
      * constructor; auto.
      * intros x [<-|Hx]; auto.
      * intros x Hx. right; auto.
      * intros x [<-|Hx]; eauto.
    + right. right. eexists _, _, _. split; [reflexivity|]. split; auto. constructor; auto.
      * constructor; auto.
      * intros x [<-|Hx]; auto.
      * intros x Hx. apply in_app_iff in Hx as [Hx|[<-|[]]]; [right; auto|left; auto].
      * intros x [<-|Hx]; [exists r; split; auto; apply in_app_iff; simpl; auto|]. destruct (S4 x Hx) as (y & Hy & Ey). exists y. split; auto. apply in_app_iff; auto.
      * rewrite map_app. simpl. rewrite <- Permutation_cons_append. constructor; auto.
        intros Hi. apply in_map_iff in Hi as (y & Ey & Hy). assert (false = true) by (apply Hb; eauto). discriminate.
  - right. left. eauto.
Qed.

Local Notation distinct := (distinct data).

Lemma distinct_ge M seen : started M seen -> (length M <= distinct)%nat.
Proof.
  intros [S1 S2 S3 S4 S5]. unfold distinct. rewrite <- (map_length Some (nodup _ data)), <- (map_length (fun x => nth_error data x) M).
  apply NoDup_incl_length; auto. intros o Ho. apply in_map_iff in Ho as (x & <- & Hx). specialize (S2 x (S3 x Hx)).
  destruct (nth_error data x) as [row|] eqn:E; [|apply nth_error_None in E; lia]. apply in_map, nodup_In. eapply nth_error_In; eauto.
Qed.
Lemma distinct_le M seen : started M seen -> (length data <= length seen)%nat -> (distinct <= length M)%nat.
Proof.
  intros [S1 S2 S3 S4 S5] L. unfold distinct. rewrite <- (map_length Some (nodup _ data)), <- (map_length (fun x => nth_error data x) M).
  apply NoDup_incl_length.
  - apply FinFun.Injective_map_NoDup; [intros a b E; congruence|apply NoDup_nodup].
  - intros o Ho. apply in_map_iff in Ho as (row & <- & Hrow). apply nodup_In, In_nth_error in Hrow as (x & Ex).
    assert (Hx : In x seen).
    { assert (I : incl (seq 0 (length data)) seen).
      { apply NoDup_length_incl; auto; [rewrite seq_length; auto|]. intros y Hy. apply in_seq. specialize (S2 y Hy). lia. }
      apply I, in_seq. assert (x < length data)%nat by (apply nth_error_Some; congruence). lia. }
    destruct (S4 x Hx) as (y & Hy & Ey). apply in_map_iff. exists y. split; auto. congruence.
Qed.

Definition phase (i : nat) (st : bool * nat * list nat * assignment * medoids) : Prop :=
  let '(go, _, seen, chk, M) := st in
  in_range k chk /\
  if go then (i = 0%nat /\ seen = [] /\ M = mkMed [[]] [0%nat]) \/ (goodM i M /\ started (mmeans M) seen)
  else (distinct < i)%nat /\ (data = [] \/ (length (mclusters M) < i)%nat).

Lemma start_l fuel i st : (i < k)%nat -> phase i st ->
  medoidStart rnd ord fuel data st i = Fuel \/ exists st', medoidStart rnd ord fuel data st i = Ok st' /\ phase (S i) st'.
Proof.
  destruct st as ((((go, c), seen), chk), M). intros Hk [Ir Hgo]. unfold medoidStart. destruct go; cbn [negb].
  2: { right. eexists. split; [reflexivity|]. split; auto. destruct Hgo as [H1 H2]. split; [lia|]. destruct H2; [auto|right; lia]. }
  assert (St : started (firstn i (mmeans M)) seen /\ (i = 0%nat \/ (goodM i M /\ firstn i (mmeans M) = mmeans M)) ).
  { destruct Hgo as [(-> & -> & ->)|(G & St)].
    - split; [|left; auto]. simpl. constructor; simpl; try (intros; contradiction); constructor.
    - destruct G as [G1 G2 G3]. rewrite <- G2 at 1. rewrite firstn_all. split; auto. right. split; [constructor; auto|].
      rewrite <- G2. apply firstn_all. }
  destruct St as [St Hi].
  assert (Li : length (firstn i (mmeans M)) = i).
  { destruct Hi as [->|([G1 G2 G3] & E)]; [auto|]. rewrite E; auto. }
  destruct (drawNew_l fuel c seen _ St) as [->|[(c' & seen' & -> & St' & L)|(r & c' & seen' & -> & Rn & St')]]; cbn [bind]; auto.
  - right. eexists. split; [reflexivity|]. split; auto. pose proof (distinct_le _ _ St' L). split; [lia|].
    destruct Hi as [->|([G1 G2 G3] & E)]; [|right; lia]. left. simpl in St'. destruct seen' as [|x seen']; [destruct data; auto; simpl in L; lia|].
    destruct (st_seen _ _ St' x (or_introl eq_refl)) as (y & [] & _).
  - destruct (idx_ok data r Rn) as (row & -> & Er). cbn [bind].
    set (M1 := if Nat.eqb i 0 then mkMed [[]] [r] else mkMed (mclusters M ++ [[]]) (mmeans M ++ [r])).
    assert (G1 : goodM (S i) M1 /\ mmeans M1 = firstn i (mmeans M) ++ [r]).
    { unfold M1. destruct (Nat.eqb_spec i 0) as [->|Hn].
      - split; [|reflexivity]. constructor; cbn; auto. intros cl [<-|[]] e [].
      - destruct Hi as [?|([A1 A2 A3] & E)]; [contradiction|]. split; [|cbn [mmeans]; rewrite E; auto].
        constructor; cbn [mclusters mmeans]; rewrite ?app_length; simpl; try lia.
        intros cl Hc. apply in_app_iff in Hc as [Hc|[<-|[]]]; auto. intros e []. }
    destruct G1 as [G1 Em].
    destruct (insert_l (S i) M1 (Z.of_nat i) row r G1 ltac:(lia)) as (M2 & -> & G2 & Hm).
    { apply Hd. eapply nth_error_In; eauto. }
    right. cbn [bind]. eexists. split; [reflexivity|]. split.
    + intros j v Hj. destruct (Nat.eq_dec j r) as [->|Hjr]; [rewrite upd_same in Hj; injection Hj as <-; lia|]. rewrite upd_diff in Hj by auto. eauto.
    + right. split; auto. assert (E2 : mmeans M2 = firstn i (mmeans M) ++ [r]).
      { destruct Hm as [->| ->]; auto. rewrite Em. rewrite Nat2Z.id. apply set_same. rewrite nth_error_app2, Li, Nat.sub_diag by (rewrite Li; auto). auto. }
      rewrite E2. auto.
Qed.

Lemma starts_l fuel : forall l i st, seq i (length l) = l -> (i + length l <= k)%nat -> phase i st ->
  foldr_ (medoidStart rnd ord fuel data) l st = Fuel \/
  exists st', foldr_ (medoidStart rnd ord fuel data) l st = Ok st' /\ phase (i + length l) st'.
Proof.
  induction l as [|x l IH]; intros i st Hl Hk P; cbn [foldr_].
  - right. exists st. rewrite Nat.add_0_r. auto.
  - cbn [length seq] in Hl, Hk. injection Hl as <- Hl. destruct (start_l fuel i st ltac:(lia) P) as [->|(st' & -> & P')]; auto. cbn [bind].
    destruct (IH (S i) st' Hl ltac:(lia) P') as [->|(st2 & -> & P2)]; auto. right. exists st2. split; auto. cbn [length]. rewrite Nat.add_succ_r. auto.
Qed.

Lemma phase0 : phase 0 (true, 0%nat, [], fun _ => None, mkMed [[]] [0%nat]).
Proof. split; [intros ? ? E; discriminate|]. left. auto. Qed.

Lemma kMedoid_safe_l fuel : (0 < k <= distinct)%nat -> kMedoid rnd ord fuel k data <> Panic.
Proof.
  intros Hk. unfold kMedoid.
  destruct (starts_l fuel (seq 0 k) 0 _ ltac:(rewrite seq_length; auto) ltac:(rewrite seq_length; lia) phase0) as [->|(((((go, c), seen), chk), M) & -> & Ir & Hgo)]; [discriminate|].
  cbn [bind]. rewrite seq_length, Nat.add_0_l in Hgo. destruct go; [|destruct Hgo; lia]. destruct Hgo as [(? & _)|(G & _)]; [lia|].
  set (dist := fun M j row => x <- medoid M j; hamming x row).
  assert (CT : converge dist (kMedoidInsert ord) (kMedoidRemove ord) k data fuel 0 0 chk M = Fuel \/
      exists chk' st', converge dist (kMedoidInsert ord) (kMedoidRemove ord) k data fuel 0 0 chk M = Ok (chk', st') /\ in_range k chk').
  { apply (converge_total dist _ _ k data (goodM k)); auto; try lia.
    - intros st c0 row G0 Hc Hrow. unfold dist, medoid. destruct G0 as [A1 A2 A3].
      destruct (idxZ_ok (mclusters st) c0 ltac:(lia)) as (cl & -> & Ecl). cbn [bind].
      destruct (idxZ_ok (mmeans st) c0 ltac:(lia)) as (r & -> & Er). cbn [bind].
      pose proof (rget_len cl r (A3 cl (nth_error_In _ _ Ecl))) as L. rewrite (Hd row Hrow).
      destruct (hamming_total (rget cl r) row ltac:(rewrite (Hd row Hrow); auto)) as (d & -> & Ld). exists d. split; auto. lia.
    - intros st c0 row i G0 Hc Hi. destruct (insert_l k st c0 row i G0 Hc) as (st' & E & G' & _); [apply Hd; eapply nth_error_In; eauto|]. eauto.
    - intros st c0 row i G0 Hc Hi. apply remove_l; auto. }
  destruct CT as [->|(chk' & M' & E & Ir')]; [discriminate|]. rewrite E. cbn [bind fst].
  destruct (collect_total k data chk') as (C & ->); [|discriminate].
  intros i Hi. unfold assigned. destruct (chk' i) as [v|] eqn:Ev; [apply (Ir' i v Ev)|]. exfalso.
  eapply (converge_assigns dist _ _ k data fuel 0 0 chk M chk' M'); eauto; [lia|]. intros j Hj; exfalso; eapply recent0; eauto.
Qed.

Lemma kMedoid_few_l fuel C : data <> [] -> (distinct < k)%nat -> kMedoid rnd ord fuel k data <> Ok C.
Proof.
  intros Hne Hk E. unfold kMedoid in E.
  destruct (starts_l fuel (seq 0 k) 0 _ ltac:(rewrite seq_length; auto) ltac:(rewrite seq_length; lia) phase0) as [Es|(((((go, c), seen), chk), M) & Es & Ir & Hgo)];
    rewrite Es in E; [discriminate|]. cbn [bind] in E. rewrite seq_length, Nat.add_0_l in Hgo.
  assert (L : (length (mclusters M) < k)%nat).
  { destruct go; [|destruct Hgo as [_ [?|?]]; [contradiction|auto]]. destruct Hgo as [(-> & _)|(G & St)]; [lia|].
    pose proof (distinct_ge _ _ St). destruct G as [G1 G2 _]. lia. }
  apply bind_ok in E as ((chk', M') & E & _). destruct fuel as [|f]; cbn [converge] in E; (destruct (Nat.ltb_spec 0 (length data)) as [Hn|Hn]; [|destruct data; [congruence|simpl in Hn; lia]]); [discriminate|].
  apply bind_ok in E as (r & E & _). unfold iterate in E. apply bind_ok in E as (row & _ & E). apply bind_ok in E as (w & E & _).
  assert (Hd1 : exists t, (x <- medoid M (Z.of_nat (k - 1)); hamming x row) = Ok t).
  { apply nearestTo_l in E as [(_ & _ & H)|(d & _ & _ & H)]; destruct (H (k - 1)%nat ltac:(lia)) as (t & Et & _); eauto. }
  destruct Hd1 as (t & Et). apply bind_ok in Et as (x & Ex & _). unfold medoid in Ex. apply bind_ok in Ex as (cl & Ec & _).
  unfold idxZ, idx in Ec. destruct (Z.ltb_spec (Z.of_nat (k - 1)) 0); [lia|]. rewrite Nat2Z.id in Ec.
  destruct (nth_error (mclusters M) (k - 1)) eqn:En; [|discriminate]. assert (k - 1 < length (mclusters M))%nat by (apply nth_error_Some; congruence). lia.
Qed.
End Medoids.
