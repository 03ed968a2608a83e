(** KMedoid from start to end. *)
From Coq Require Import Permutation.
From Verif Require Import Base Res DataByLabel Cluster ClusterSpec ClusterLemmas ClusterModes ClusterMedoids WalkLemmas MedoidEnd.
Local Open Scope Z_scope.

Lemma draw_mono rnd f : forall f' c seen n x, draw rnd f c seen n = Ok x -> (f <= f')%nat -> draw rnd f' c seen n = Ok x.
Proof.
  induction f as [|f IH]; intros f' c seen n x E L; [discriminate|]. destruct f' as [|f']; [lia|]. cbn [draw] in *.
  destruct (Nat.eqb n 0); auto. destruct (memn (rnd c n) seen); auto. apply IH; auto. lia.
Qed.
Lemma drawNew_mono rnd data M f : forall f' c seen x, drawNew rnd f c seen data M = Ok x -> (f <= f')%nat -> drawNew rnd f' c seen data M = Ok x.
Proof.
  induction f as [|f IH]; intros f' c seen x E L.
  - cbn [drawNew] in E. destruct f'; cbn [drawNew]; destruct (length seen <? length data)%nat; auto; discriminate.
  - destruct f' as [|f']; [lia|]. cbn [drawNew] in *. destruct (length seen <? length data)%nat; auto.
    apply bind_ok in E as (r & E1 & E). rewrite (draw_mono _ _ _ _ _ _ _ E1 L). cbn [bind]. apply bind_ok in E as (b & E2 & E). rewrite E2. cbn [bind].
    destruct b; auto. apply IH; auto. lia.
Qed.
Lemma start_mono rnd ord data f f' st i x : medoidStart rnd ord f data st i = Ok x -> (f <= f')%nat -> medoidStart rnd ord f' data st i = Ok x.
Proof.
  destruct st as ((((go, c), seen), chk), M). unfold medoidStart. destruct (negb go); auto. intros E L.
  apply bind_ok in E as (d & E1 & E). rewrite (drawNew_mono _ _ _ _ _ _ _ _ E1 L). auto.
Qed.
Lemma starts_mono rnd ord data f f' l : forall st x, foldr_ (medoidStart rnd ord f data) l st = Ok x -> (f <= f')%nat -> foldr_ (medoidStart rnd ord f' data) l st = Ok x.
Proof.
  induction l as [|i l IH]; intros st x E L; cbn [foldr_] in *; auto. apply bind_ok in E as (st1 & E1 & E).
  rewrite (start_mono _ _ _ _ _ _ _ _ E1 L). cbn [bind]. auto.
Qed.


Lemma draw_ends rnd n seen r : fair rnd n -> (r < n)%nat -> ~ In r seen -> forall c, exists f x, draw rnd f c seen n = Ok x.
Proof.
  intros Hf Hr Hs c. destruct (Hf c r Hr) as (c' & Hc & Ec). remember (c' - c)%nat as d eqn:Ed. revert c Hc Ed.
  induction d as [|d IH]; intros c Hc Ed.
  - assert (c = c') by lia. subst c. exists 1%nat. cbn [draw]. destruct (Nat.eqb_spec n 0); [lia|]. rewrite Ec.
    destruct (memn r seen) eqn:E; [apply memn_In in E; contradiction|]. eauto.
  - destruct (IH (S c) ltac:(lia) ltac:(lia)) as (f & x & E). exists (S f). cbn [draw]. destruct (Nat.eqb_spec n 0); [lia|].
    destruct (memn (rnd c n) seen); eauto.
Qed.
Lemma missing seen n : NoDup seen -> (length seen < n)%nat -> exists r, (r < n)%nat /\ ~ In r seen.
Proof.
  intros N L. destruct (existsb (fun r => negb (memn r seen)) (seq 0 n)) eqn:E.
  - apply existsb_exists in E as (r & Hr & E). apply in_seq in Hr. exists r. split; [lia|]. apply memn_false. destruct (memn r seen); auto; discriminate.
  - exfalso. assert (I : incl (seq 0 n) seen).
    { intros r Hr. destruct (memn r seen) eqn:E'; [apply memn_In; auto|]. assert (existsb (fun r => negb (memn r seen)) (seq 0 n) = true); [|congruence].
      apply existsb_exists. exists r. rewrite E'. auto. }
    apply NoDup_incl_length in I; [|apply seq_NoDup]. rewrite seq_length in I. lia.
Qed.

Section Top.
Variable rnd : nat -> nat -> nat.
Variable ord : rowmap -> rowmap.
Variable data : list (list Z).
Variable m : nat.
Variable k : nat.
Hypothesis perm : forall cl, Permutation (ord cl) cl.
Hypothesis Hd : forall row, In row data -> length row = m.
Hypothesis Hr : forall c, (rnd c (length data) < length data)%nat.

Lemma drawNew_new : forall fuel c seen M r c' seen', NoDup seen -> drawNew rnd fuel c seen data M = Ok (Some r, c', seen') ->
  ~ In r seen /\ incl seen seen' /\ In r seen'.
Proof.
  induction fuel as [|f IH]; intros c seen M r c' seen' N E; cbn [drawNew] in E; destruct (Nat.ltb_spec (length seen) (length data)) as [L|L]; try discriminate.
  apply bind_ok in E as ((r1, c1) & E1 & E). apply draw_new in E1 as (B1 & N1); auto. apply bind_ok in E as (b & _ & E). cbn [fst snd] in E. destruct b.
  - apply IH in E as (E & E' & E''); [|constructor; auto]. split; [intros H; apply E; right; auto|]. split; auto. intros x Hx. apply E'. right; auto.
  - injection E as <- <- <-. split; auto. split; [intros x Hx; right; auto|left; auto].
Qed.

Lemma drawNew_ends : fair rnd (length data) -> forall d c seen M, started data M seen -> (length data - length seen <= d)%nat ->
  exists f x, drawNew rnd f c seen data M = Ok x.
Proof.
  intros Hf. induction d as [|d IH]; intros c seen M St L.
  - exists 0%nat. cbn [drawNew]. destruct (Nat.ltb_spec (length seen) (length data)); [lia|eauto].
  - destruct (Nat.ltb_spec (length seen) (length data)) as [Hl|Hl].
    + destruct (missing seen (length data) (st_nodup _ _ _ St) Hl) as (r & Hrn & Hrs).
      destruct (draw_ends rnd (length data) seen r Hf Hrn Hrs c) as (f & (r1, c1) & E1). pose proof (draw_new _ _ _ _ _ _ _ Hr E1) as (B1 & N1).
      destruct St as [S1 S2 S3 S4 S5].
      destruct (sameAs_l rnd data m Hd r1 M B1 ltac:(auto)) as (b & Eb & Hb).
      destruct b.
      * destruct (IH c1 (r1 :: seen) M) as (f2 & x & E2).
        { destruct (proj1 Hb eq_refl) as (y & Hy & Ey). constructor; auto.
          - constructor; auto.
          - intros x [<-|Hx]; auto.
          - intros x Hx. right; auto.
          - intros x [<-|Hx]; eauto. }
        { simpl. lia. }
        exists (S (f + f2)), x. cbn [drawNew]. destruct (Nat.ltb_spec (length seen) (length data)); [|lia].
        rewrite (draw_mono _ f (S (f + f2)) _ _ _ _ E1) by lia. cbn [bind fst snd]. rewrite Eb. cbn [bind].
        apply (drawNew_mono _ _ _ f2); auto. lia.
      * exists (S f). eexists. cbn [drawNew]. destruct (Nat.ltb_spec (length seen) (length data)); [|lia].
        rewrite (draw_mono _ f (S f) _ _ _ _ E1) by lia. cbn [bind fst snd]. rewrite Eb. cbn [bind]. reflexivity.
    + exists 0%nat. cbn [drawNew]. destruct (Nat.ltb_spec (length seen) (length data)); [lia|eauto].
Qed.

Hypothesis Hk : (0 < k <= distinct data)%nat.

Definition ready (i : nat) (st : bool * nat * list nat * assignment * medoids) : Prop :=
  let '(go, _, seen, chk, M) := st in
  go = true /\ (forall j v, chk j = Some v -> In j seen) /\
  ((i = 0%nat /\ seen = [] /\ M = mkMed [[]] [0%nat] /\ (forall j, chk j = None)) \/ (tidy data m i M chk /\ started data (mmeans M) seen)).

Lemma ready_start i st : ready i st -> let '(_, _, seen, chk, M) := st in started data (firstn i (mmeans M)) seen /\ length (firstn i (mmeans M)) = i.
Proof.
  destruct st as ((((go, c), seen), chk), M). intros (_ & _ & [(-> & -> & -> & _)|([[G1 G2 G3] _ _ _ _] & St)]).
  - simpl. split; auto. constructor; simpl; try (intros; contradiction); constructor.
  - rewrite <- G2, firstn_all. auto.
Qed.

Lemma fresh_tidy i M chk r row : (i = 0%nat /\ M = mkMed [] [] /\ (forall j, chk j = None)) \/ tidy data m i M chk ->
  chk r = None -> nth_error data r = Some row ->
  exists M', kMedoidInsert ord (Z.of_nat i) row r (mkMed (mclusters M ++ [[]]) (mmeans M ++ [r])) = Ok M' /\
    mmeans M' = mmeans M ++ [r] /\ tidy data m (S i) M' (upd chk r (Some (Z.of_nat i))).
Proof.
  intros H Hc Er.
  assert (T : tidy data m i M chk).
  { destruct H as [(-> & -> & Hn)|T]; auto. constructor; cbn.
    - constructor; cbn; auto. intros cl [].
    - intros c cl E; destruct c; discriminate.
    - intros c cl E; destruct c; discriminate.
    - intros c q E; destruct c; discriminate.
    - intros j v E. rewrite Hn in E. discriminate. }
  clear H. destruct T as [[G1 G2 G3] T2 T3 T4 T5]. unfold kMedoidInsert. cbn [mclusters mmeans].
  assert (I1 : idxZ (mclusters M ++ [[]]) (Z.of_nat i) = Ok []).
  { unfold idxZ, idx. destruct (Z.ltb_spec (Z.of_nat i) 0); [lia|]. rewrite Nat2Z.id, nth_error_app2, G1, Nat.sub_diag by lia. auto. }
  assert (I2 : idxZ (mmeans M ++ [r]) (Z.of_nat i) = Ok r).
  { unfold idxZ, idx. destruct (Z.ltb_spec (Z.of_nat i) 0); [lia|]. rewrite Nat2Z.id, nth_error_app2, G2, Nat.sub_diag by lia. auto. }
  rewrite I1, I2. cbn [bind]. assert (Ep : rput [] r row = [(r, row)]) by reflexivity. rewrite Ep.
  assert (Eo : ord [(r, row)] = [(r, row)]) by (apply Permutation_length_1_inv, Permutation_sym, perm). rewrite Eo.
  assert (Eg : rget [(r, row)] r = row) by (unfold rget; simpl; rewrite Nat.eqb_refl; auto). rewrite Eg.
  cbn [foldr_ snd fst]. rewrite hamming_ok by lia. cbn [bind fst snd]. rewrite Z.ltb_irrefl. rewrite Nat2Z.id.
  assert (Es : @set_nth rowmap i [(r, row)] (mclusters M ++ [[]]) = mclusters M ++ [[(r, row)]]).
  { rewrite <- G1. clear. induction (mclusters M) as [|cl l IH]; simpl; auto. f_equal; auto. }
  rewrite Es. eexists. split; [reflexivity|]. cbn [mmeans]. split; auto. constructor; cbn [mclusters mmeans].
  - constructor; cbn [mclusters mmeans]; rewrite ?app_length; simpl; try lia. intros cl Hcl. apply in_app_iff in Hcl as [Hcl|[<-|[]]]; auto.
    intros e [<-|[]]. simpl. apply Hd. eapply nth_error_In; eauto.
  - intros c cl E. apply nth_snoc in E as [E|(_ & ->)]; [eauto|]. simpl. constructor; [intros []|constructor].
  - intros c cl E j x. apply nth_snoc in E as [E|(E & ->)].
    + assert (L : (c < length (mclusters M))%nat) by (apply nth_error_Some; congruence). rewrite (T3 c cl E). destruct (Nat.eq_dec j r) as [->|Hj]; [rewrite upd_same, Hc|rewrite upd_diff by auto; tauto].
      split; intros (H & _); [discriminate|]. injection H as H. rewrite G1 in *. lia.
    + rewrite G1 in E. subst c. simpl. destruct (Nat.eq_dec j r) as [->|Hj].
      * rewrite upd_same. split; [intros [H|[]]; injection H as <-; auto|intros (_ & H); left; congruence].
      * rewrite upd_diff by auto. split; [intros [H|[]]; congruence|]. intros (H & _). apply T5 in H. lia.
  - intros c q E. apply nth_snoc in E as [E|(E & ->)].
    + pose proof (T4 c q E). rewrite upd_diff; auto. intros ->. congruence.
    + rewrite G2 in E. subst c. apply upd_same.
  - intros j v E. destruct (Nat.eq_dec j r) as [->|Hj]; [rewrite upd_same in E; injection E as <-; split; [apply nth_error_Some; congruence|lia]|].
    rewrite upd_diff in E by auto. apply T5 in E. split; [tauto|lia].
Qed.

Lemma ready_step fuel i go c seen chk M : (i < k)%nat -> ready i (go, c, seen, chk, M) ->
  (drawNew rnd fuel c seen data (firstn i (mmeans M)) = Fuel /\ medoidStart rnd ord fuel data (go, c, seen, chk, M) i = Fuel) \/
  exists st', medoidStart rnd ord fuel data (go, c, seen, chk, M) i = Ok st' /\ ready (S i) st'.
Proof.
  intros Hi R. pose proof (ready_start i _ R) as St0. destruct R as (-> & Rc & Rm). destruct St0 as (St & Ls).
  unfold medoidStart. cbn [negb].
  destruct (drawNew_l rnd data m Hd Hr fuel c seen _ St) as [E2|[(c2 & seen2 & E2 & St' & L)|(r2 & c2 & seen2 & E2 & Rn & St')]]; rewrite E2; cbn [bind]; auto.
  - exfalso. pose proof (distinct_le _ _ _ St' L). lia.
  - right. apply drawNew_new in E2 as (N1 & N2 & N3); [|apply St]. destruct (idx_ok data r2 Rn) as (row & Er & Erow). rewrite Er. cbn [bind].
    assert (Hc : chk r2 = None) by (destruct (chk r2) eqn:Ec; auto; exfalso; apply N1; eauto).
    set (M0 := if Nat.eqb i 0 then mkMed [] [] else M).
    assert (EM : (if Nat.eqb i 0 then mkMed [[]] [r2] else mkMed (mclusters M ++ [[]]) (mmeans M ++ [r2])) = mkMed (mclusters M0 ++ [[]]) (mmeans M0 ++ [r2])).
    { unfold M0. destruct (Nat.eqb i 0); auto. }
    rewrite EM.
    assert (EF : firstn i (mmeans M) = mmeans M0).
    { unfold M0. destruct Rm as [(-> & _ & -> & _)|(T & _)]; [auto|]. destruct T as [[G1 G2 _] _ _ _ _]. destruct (Nat.eqb_spec i 0) as [->|]; auto.
      rewrite <- G2. apply firstn_all. }
    destruct (fresh_tidy i M0 chk r2 row) as (M' & EI & Em & T'); auto.
    { unfold M0. destruct Rm as [(-> & _ & -> & Hn)|(T & _)]; [left; auto|]. destruct (Nat.eqb_spec i 0) as [->|]; [|auto]. left. split; auto. split; auto.
      intros j. destruct (chk j) eqn:Ej; auto. apply (t_data _ _ _ _ _ T) in Ej. lia. }
    rewrite EI. cbn [bind]. eexists. split; [reflexivity|]. split; auto. split.
    + intros j v Hj. destruct (Nat.eq_dec j r2) as [->|Hjr]; auto. rewrite upd_diff in Hj by auto. apply N2. eauto.
    + right. split; auto. rewrite Em, <- EF. auto.
Qed.

Lemma ready_l fuel i st st' : (i < k)%nat -> ready i st -> medoidStart rnd ord fuel data st i = Ok st' -> ready (S i) st'.
Proof.
  destruct st as ((((go, c), seen), chk), M). intros Hi R E. destruct (ready_step fuel i _ _ _ _ _ Hi R) as [(_ & E')|(st2 & E' & R')]; rewrite E' in E; [discriminate|].
  injection E as <-. auto.
Qed.
Lemma ready_ends i st : fair rnd (length data) -> (i < k)%nat -> ready i st -> exists f st', medoidStart rnd ord f data st i = Ok st' /\ ready (S i) st'.
Proof.
  intros Hf Hi R. pose proof (ready_start i st R) as St0. destruct st as ((((go, c), seen), chk), M). destruct St0 as (St & Ls).
  destruct (drawNew_ends Hf (length data) c seen _ St ltac:(lia)) as (f & x & E1). exists f.
  destruct (ready_step f i _ _ _ _ _ Hi R) as [(E' & _)|(st2 & E' & R')]; [congruence|eauto].
Qed.

Lemma ready_all fuel : forall l i st st', seq i (length l) = l -> (i + length l <= k)%nat -> ready i st ->
  foldr_ (medoidStart rnd ord fuel data) l st = Ok st' -> ready (i + length l) st'.
Proof.
  induction l as [|x l IH]; intros i st st' Hl Hk' R E; cbn [foldr_] in E.
  - injection E as <-. rewrite Nat.add_0_r. auto.
  - cbn [length seq] in Hl, Hk'. injection Hl as <- Hl. apply bind_ok in E as (st1 & E1 & E). apply ready_l in E1; auto; [|lia].
    cbn [length]. rewrite Nat.add_succ_r. apply (IH (S i) st1); auto. lia.
Qed.
Lemma ready_all_ends : fair rnd (length data) -> forall l i st, seq i (length l) = l -> (i + length l <= k)%nat -> ready i st ->
  exists f st', foldr_ (medoidStart rnd ord f data) l st = Ok st' /\ ready (i + length l) st'.
Proof.
  intros Hf. induction l as [|x l IH]; intros i st Hl Hk' R; cbn [foldr_].
  - exists 0%nat, st. rewrite Nat.add_0_r. auto.
  - cbn [length seq] in Hl, Hk'. injection Hl as <- Hl. destruct (ready_ends i st Hf ltac:(lia) R) as (f1 & st1 & E1 & R1).
    destruct (IH (S i) st1 Hl ltac:(lia) R1) as (f2 & st2 & E2 & R2). exists (f1 + f2)%nat, st2.
    rewrite (start_mono _ _ _ f1 (f1 + f2) _ _ _ E1) by lia. cbn [bind length]. split; [apply (starts_mono _ _ _ f2); auto; lia|]. rewrite Nat.add_succ_r. auto.
Qed.
Lemma ready0 : ready 0 (true, 0%nat, [], fun _ => None, mkMed [[]] [0%nat]).
Proof. split; auto. split; [intros; discriminate|]. left. auto. Qed.

Lemma converge_tidy : forall fuel i nc chk M chk' M', tidy data m k M chk -> (i < length data)%nat \/ length data = 0%nat ->
  converge (fun M j (row : list Z) => x <- medoid M j; hamming x row) (kMedoidInsert ord) (kMedoidRemove ord) k data fuel i nc chk M = Ok (chk', M') -> tidy data m k M' chk'.
Proof.
  induction fuel as [|fuel IH]; intros i nc chk M chk' M' T Hi E; cbn [converge] in E; destruct (Nat.ltb_spec nc (length data)) as [L|L];
    try discriminate; try (injection E as <- <-; auto; fail).
  destruct (iterate_l ord data m perm Hd k ltac:(lia) i nc M chk T ltac:(lia)) as (nc' & chk1 & M1 & E1 & T1 & _). rewrite E1 in E. cbn [bind] in E.
  apply IH in E; auto. destruct (Nat.leb_spec (length data) (S i)); lia.
Qed.

Lemma centred_l chk0 M0 fuel chk M C : tidy data m k M0 chk0 ->
  converge (fun M j (row : list Z) => x <- medoid M j; hamming x row) (kMedoidInsert ord) (kMedoidRemove ord) k data fuel 0 0 chk0 M0 = Ok (chk, M) ->
  collect k data chk = Ok C -> centred C.
Proof.
  intros T0 E1 E2. assert (Hn : (0 < length data)%nat \/ length data = 0%nat) by lia.
  pose proof (converge_tidy fuel 0 0 chk0 M0 chk M T0 Hn E1) as T. apply collect_l in E2 as (P & R).
  assert (Hmed : forall c, (c < k)%nat -> exists r row, nth_error data r = Some row /\ chk r = Some (Z.of_nat c) /\ medoid M (Z.of_nat c) = Ok row).
  { intros c Hc. destruct (medoid_l data m k M chk c T Hc) as (cl & r & row & _ & _ & Er & _ & _ & Hcr & Em). eauto. }
  assert (HP : forall r row c, nth_error data r = Some row -> chk r = Some (Z.of_nat c) -> exists cl, nth_error C c = Some cl /\ In (r, row) cl).
  { intros r row c Er Ec. destruct P as (LC & P). assert (Hin : In (r, row) (concat C)).
    { eapply Permutation_in; [apply Permutation_sym; exact P|]. unfold instances. apply nth_error_In with (n := r). apply combine_nth_error; auto.
      assert (r < length data)%nat by (apply nth_error_Some; congruence). rewrite (nth_error_nth' _ 0%nat) by (rewrite seq_length; auto). rewrite seq_nth; auto. }
    apply in_concat in Hin as (cl & Hcl & Hin). apply In_nth_error in Hcl as (c2 & Hc2). destruct (R c2 cl r row Hc2 Hin) as (_ & Ha).
    unfold assigned in Ha. rewrite Ec in Ha. assert (c2 = c) by lia. subst c2. eauto. }
  destruct P as (LC & P).
  assert (Hcen : exists centres, Forall2 (fun e cl => In e cl) centres C /\ forall c e, nth_error centres c = Some e -> medoid M (Z.of_nat c) = Ok (snd e)).
  { assert (G : forall l l0, C = l0 ++ l -> exists centres, Forall2 (fun e cl => In e cl) centres l /\ forall c e, nth_error centres c = Some e -> medoid M (Z.of_nat (length l0 + c)) = Ok (snd e)).
    { induction l as [|cl l IH]; intros l0 E; [exists []; split; [constructor|intros [|c] e H; discriminate]|].
      destruct (IH (l0 ++ [cl])) as (cs & F & H); [rewrite <- app_assoc; auto|].
      assert (L0 : (length l0 < k)%nat) by (rewrite <- LC, E, app_length; simpl; lia).
      destruct (Hmed (length l0) L0) as (r & row & Er & Ec & Em). destruct (HP r row _ Er Ec) as (cl' & Hcl' & Hin).
      rewrite E, nth_error_app2, Nat.sub_diag in Hcl' by lia. injection Hcl' as <-. exists ((r, row) :: cs). split; [constructor; auto|].
      intros [|c] e He; cbn [nth_error] in He; [injection He as <-; rewrite Nat.add_0_r; auto|]. specialize (H c e He). rewrite app_length in H. simpl in H.
      replace (length l0 + S c)%nat with (length l0 + 1 + c)%nat by lia. auto. }
    apply (G C []); auto. }
  destruct Hcen as (centres & F & Hm). exists centres. split; auto.
  intros c1 c2 cl i row m1 m2 Hc Hi' H1 H2.
  destruct (nth_error centres c1) as [e1|] eqn:Ee1; [|rewrite (proj2 (nth_error_None (map snd centres) c1)) in H1; [discriminate|rewrite map_length; apply nth_error_None; auto]].
  destruct (nth_error centres c2) as [e2|] eqn:Ee2; [|rewrite (proj2 (nth_error_None (map snd centres) c2)) in H2; [discriminate|rewrite map_length; apply nth_error_None; auto]].
  rewrite (map_nth_error snd _ _ Ee1) in H1. rewrite (map_nth_error snd _ _ Ee2) in H2. injection H1 as <-. injection H2 as <-.
  apply Hm in Ee1 as M1. apply Hm in Ee2 as M2. destruct (R _ _ _ _ Hc Hi') as (Hrow & Ha).
  assert (Li : (i < length data)%nat) by (apply nth_error_Some; congruence).
  assert (L2 : (c2 < k)%nat).
  { rewrite <- LC, <- (DataByLabel.Forall2_len _ _ _ F). apply nth_error_Some. congruence. }
  apply converge_near with (j := i) in E1; auto; [|intros j Hj; exfalso; eapply recent0; eauto].
  destruct E1 as (row' & v & d & Er & Ev & Ed & Hmin). rewrite Hrow in Er. injection Er as <-. unfold assigned in Ha. rewrite Ev in Ha. subst v.
  destruct (Hmin c2 L2) as (t & Et & Le). rewrite M1 in Ed. rewrite M2 in Et. cbn [bind] in Ed, Et. apply hamming_l in Ed, Et. lia.
Qed.

(** Whatever KMedoid returns. *)
Lemma kMedoid_centred fuel C : kMedoid rnd ord fuel k data = Ok C -> partitions k data C /\ centred C.
Proof.
  intros E. split; [exact (proj1 (kMedoid_l rnd ord data k fuel C E))|]. unfold kMedoid in E. apply bind_ok in E as (((((go, c), seen), chk), M) & E1 & E).
  apply (ready_all fuel (seq 0 k) 0) in E1; [|rewrite seq_length; auto|rewrite seq_length; lia|apply ready0].
  rewrite seq_length, Nat.add_0_l in E1. destruct E1 as (_ & _ & [(H & _)|(T & _)]); [lia|]. apply bind_ok in E as ((chk', M') & E2 & E).
  eapply centred_l; eauto.
Qed.

(** KMedoid returns. *)
Lemma kMedoid_returns : fair rnd (length data) -> exists fuel0, forall fuel, (fuel0 <= fuel)%nat -> exists C, kMedoid rnd ord fuel k data = Ok C.
Proof.
  intros Hf. destruct (ready_all_ends Hf (seq 0 k) 0 _ ltac:(rewrite seq_length; auto) ltac:(rewrite seq_length; lia) ready0) as (f & ((((go, c), seen), chk), M) & E & R).
  rewrite seq_length, Nat.add_0_l in R. destruct R as (_ & _ & [(H & _)|(T & _)]); [lia|].
  exists (f + steps data m 0 M)%nat. intros fuel L. unfold kMedoid. rewrite (starts_mono _ _ _ f fuel _ _ _ E) by lia. cbn [bind].
  destruct (converge_l ord data m perm Hd k ltac:(lia) fuel 0 0 chk M T ltac:(lia) ltac:(lia)) as (chk' & M' & E2 & T'). rewrite E2. cbn [bind fst].
  apply collect_total. intros i Hi. unfold assigned. destruct (chk' i) as [v|] eqn:Ev; [apply (t_data _ _ _ _ _ T') in Ev; tauto|]. exfalso.
  eapply converge_assigns; [| |exact E2|exact Hi|exact Ev]; [lia|]. intros j Hj; exfalso; eapply recent0; eauto.
Qed.
End Top.
