(** OldKMeansF with the Euclidean distance over the reals ends. *)
From Coq Require Import Reals Lra Permutation.
From Verif Require Import Base Res Arith LogSpec Cluster ClusterSpec ClusterLemmas ClusterMedoids MedoidTop Dbscan Kmeans KmeansSpec KmeansLemmas KmeansTop KmeansReal.
Local Open Scope Z_scope.

Lemma foldi_steps {T U} (P : nat -> U -> Prop) (f : nat -> U -> T -> res U) l :
  (forall i s x, nth_error l i = Some x -> P i s -> exists s', f i s x = Ok s' /\ P (S i) s') -> forall s, P 0%nat s -> exists s', foldi f l s = Ok s' /\ P (length l) s'.
Proof.
  unfold foldi. assert (K : forall i0, (forall i s x, nth_error l i = Some x -> P (i0 + i)%nat s -> exists s', f (i0 + i)%nat s x = Ok s' /\ P (S (i0 + i)) s') ->
    forall s, P i0 s -> exists s', foldi_from i0 f l s = Ok s' /\ P (i0 + length l)%nat s').
  { induction l as [|x l IH]; intros i0 Hf s Ps; cbn [foldi_from length]; [rewrite Nat.add_0_r; eauto|]. destruct (Hf 0%nat s x eq_refl) as (s1 & E1 & P1); [rewrite Nat.add_0_r; auto|]. rewrite Nat.add_0_r in E1, P1. rewrite E1. cbn [bind].
    replace (i0 + S (length l))%nat with (i0 + 1 + length l)%nat by lia. apply IH; [|replace (i0 + 1)%nat with (S i0) by lia; auto].
    intros i t y Hy Pt. replace (i0 + 1 + i)%nat with (i0 + S i)%nat in * by lia. apply Hf; auto. }
  intros Hf. apply (K 0%nat). exact Hf.
Qed.
Lemma mapi_total {T U} (f : nat -> T -> res U) l : forall i0, (forall i x, nth_error l i = Some x -> exists v, f (i0 + i)%nat x = Ok v) -> exists vs, mapi_from i0 f l = Ok vs.
Proof.
  induction l as [|x l IH]; intros i0 H; cbn [mapi_from]; eauto. destruct (H 0%nat x eq_refl) as (v & E). rewrite Nat.add_0_r in E. rewrite E. cbn [bind].
  destruct (IH (S i0)) as (vs & Ev); [intros i y Hy; replace (S i0 + i)%nat with (i0 + S i)%nat by lia; apply H; auto|]. rewrite Ev. cbn [bind]. eauto.
Qed.

Section End_.
Variable n k : nat.
Variable Dr : list (list R).
Hypothesis HDr : forall row, In row Dr -> length row = n.
Hypothesis Hk : (0 < k)%nat.
Local Notation mat := (map (map Fin)).
Local Notation xmat := (list (list (F XR))).
Local Notation nearX := (@nearestF XR PInf (@euclideanF XR)).
Local Notation assignX := (@assign XR PInf (@euclideanF XR)).

Definition centres (M : list (list R)) : Prop := length M = k /\ forall m, In m M -> length m = n.
Definition slot (c : Z) : Prop := 0 <= c < Z.of_nat k.

Lemma gt_fin a b : @fgt XR (Fin a) (Fin b) = true <-> (b < a)%R.
Proof using. cbn. destruct (Rlt_dec b a); split; auto; discriminate. Qed.

Lemma idx_mat (M : list (list R)) i m : nth_error M i = Some m -> idx (mat M : xmat) i = Ok (map Fin m).
Proof using. intros E. apply (ok_idx (T := list (F XR))). rewrite nth_error_map, E. auto. Qed.

Lemma nearest_fin M d c : centres M -> length d = n -> c = -1 \/ slot c ->
  exists q, nearX (mat M) (map Fin d) c = Ok q /\ slot q /\ (q = c \/ c = -1 \/ (d2 n d (nth (Z.to_nat q) M []) < d2 n d (nth (Z.to_nat c) M []))%R).
Proof using Hk.
  clear HDr. intros [LM HM] Ld Hc. unfold nearestF.
  assert (Emn : exists mn : F XR, (if c =? -1 then @Ok (F XR) PInf else m <- idxZ (mat M : xmat) c; @euclideanF XR (map Fin d) m) = Ok mn /\
            (c = -1 /\ mn = PInf \/ slot c /\ mn = Fin (sqrt (d2 n d (nth (Z.to_nat c) M []))))).
  { destruct Hc as [->|Hc]; [exists (PInf : F XR); cbn; auto|]. unfold slot in Hc. destruct (Z.eqb_spec c (-1)); [lia|]. destruct (nth_error M (Z.to_nat c)) as [m|] eqn:Em; [|apply nth_error_None in Em; lia].
    unfold idxZ. destruct (Z.ltb_spec c 0); [lia|]. rewrite (idx_mat _ _ _ Em). cbn [bind]. rewrite (euclid_fin n) by (auto; apply HM; eapply nth_error_In; eauto).
    eexists. split; [reflexivity|]. right. split; auto. rewrite (nth_error_nth _ _ _ Em). auto. }
  destruct Emn as (mn & -> & Hmn). cbn [bind].
  destruct (foldi_steps (fun i (st : Z * F XR) => (st = (c, mn) /\ (c = -1 -> i = 0%nat)) \/ exists j m, (j < k)%nat /\ nth_error M j = Some m /\ st = (Z.of_nat j, Fin (sqrt (d2 n d m))) /\ @fgt XR mn (Fin (sqrt (d2 n d m))) = true)
     (fun j (st : Z * F XR) m => u <- @euclideanF XR (map Fin d) m; Ok (if fgt (snd st) u then (Z.of_nat j, u) else st)) (mat M : xmat)) with (s := (c, mn)) as (st & E & H).
  - intros i st x Ex Hst. rewrite nth_error_map in Ex. destruct (nth_error M i) as [m|] eqn:Em; [|discriminate]. injection Ex as <-.
    rewrite (euclid_fin n) by (auto; apply HM; eapply nth_error_In; eauto). cbn [bind]. eexists. split; [reflexivity|].
    assert (Hi : (i < k)%nat) by (apply nth_lt in Em; lia).
    destruct Hst as [[-> Hi0]|(j & m' & Hj & Em' & -> & Hlt)].
    + cbn [snd]. destruct (@fgt XR mn (Fin (sqrt (d2 n d m)))) eqn:Eg; [right; exists i, m; auto|]. left. split; auto. intros ->. destruct Hmn as [[_ ->]|[[] _]]; [discriminate|lia].
    + cbn [snd]. destruct (@fgt XR (Fin (sqrt (d2 n d m'))) (Fin (sqrt (d2 n d m)))) eqn:Eg; [|right; exists j, m'; auto]. right. exists i, m. split; auto. split; auto. split; auto.
      apply gt_fin in Eg. destruct mn; auto; try discriminate. apply gt_fin in Hlt. apply gt_fin. lra.
  - left. auto.
  - rewrite E. cbn [bind]. exists (fst st). split; auto. rewrite map_length in H. destruct H as [[-> H0]|(j & m & Hj & Em & -> & Hlt)]; cbn [fst].
    + destruct Hc as [->|Hc]; [specialize (H0 eq_refl); lia|]. auto.
    + split; [split; lia|]. destruct Hmn as [[-> _]|[Hs ->]]; auto. right. right. rewrite Nat2Z.id, (nth_error_nth _ _ _ Em). apply gt_fin in Hlt.
      destruct (Rlt_le_dec (d2 n d m) (d2 n d (nth (Z.to_nat c) M []))) as [|Hle]; auto. apply sqrt_le_1_alt in Hle. lra.
Qed.

Definition begun (C : list Z) : Prop := length C = length Dr /\ forall i c, nth_error C i = Some c -> c = -1 \/ slot c.

Lemma assign_fin M C : centres M -> begun C -> exists C' b, assignX (mat M) (mat Dr) C = Ok (C', b) /\ good k Dr C' /\ (good k Dr C -> moves n Dr M C C') /\ (b = true -> C' <> C).
Proof using HDr Hk.
  intros HM [LC HC]. unfold assign.
  destruct (foldi_steps (fun i (st : list Z * bool) => length (fst st) = length Dr /\ (forall j, (i <= j)%nat -> nth_error (fst st) j = nth_error C j) /\
      (forall j c, (j < i)%nat -> nth_error C j = Some c -> exists x q, nth_error Dr j = Some x /\ nth_error (fst st) j = Some q /\ slot q /\ (q = c \/ c = -1 \/ (d2 n x (nth (Z.to_nat q) M []) < d2 n x (nth (Z.to_nat c) M []))%R)) /\
      (snd st = true -> exists j, (j < i)%nat /\ nth_error (fst st) j <> nth_error C j))
     (fun i (st : list Z * bool) d => c <- idx (fst st) i; k <- nearX (mat M) d c; Ok (if c =? k then st else (set_nth i k (fst st), true))) (mat Dr : xmat)) with (s := (C, false)) as ([C' b] & E & L & _ & H2 & H3).
  - intros i [Ci b] x Ex (L & H1 & H2 & H3). cbn [fst snd] in *. rewrite nth_error_map in Ex. destruct (nth_error Dr i) as [d|] eqn:Ed; [|discriminate]. injection Ex as <-.
    pose proof (nth_lt _ _ _ Ed) as Hi. destruct (nth_error C i) as [c|] eqn:Ec; [|apply nth_error_None in Ec; lia]. rewrite (ok_idx Ci i c) by (rewrite H1; auto). cbn [bind].
    destruct (nearest_fin M d c) as (q & -> & Hq & Hr); eauto; [apply HDr; eapply nth_error_In; eauto|]. cbn [bind]. eexists. split; [reflexivity|].
    destruct (Z.eqb_spec c q) as [->|N]; cbn [fst snd].
    + split; auto. split; [intros j Hj; apply H1; lia|]. split.
      * intros j c' Hj Ec'. destruct (Nat.eq_dec j i) as [->|Nj]; [|apply H2; auto; lia]. exists d, q. split; auto. split; [rewrite H1; auto|]. split; auto. left. congruence.
      * intros Hb. destruct (H3 Hb) as (j & Hj & Nj). exists j. split; auto.
    + rewrite set_nth_length. split; auto. split; [intros j Hj; rewrite nth_error_set_nth_diff by lia; apply H1; lia|]. split.
      * intros j c' Hj Ec'. destruct (Nat.eq_dec j i) as [->|Nj].
        -- exists d, q. split; auto. split; [apply nth_error_set_nth_same; lia|]. split; auto. replace c' with c by congruence. auto.
        -- rewrite nth_error_set_nth_diff by auto. apply H2; auto; lia.
      * intros _. exists i. split; auto. rewrite nth_error_set_nth_same by lia. congruence.
  - cbn [fst snd]. split; auto. split; auto. split; [intros; lia|discriminate].
  - rewrite E. exists C', b. cbn [fst snd] in *. rewrite map_length in H2, H3. split; auto. split; [|split].
    + split; auto. intros i q Eq. pose proof (nth_lt _ _ _ Eq) as Hi. destruct (nth_error C i) as [c|] eqn:Ec; [|apply nth_error_None in Ec; lia].
      destruct (H2 i c ltac:(lia) Ec) as (x & q' & _ & Eq' & Hq & _). replace q with q' by congruence. exact Hq.
    + intros [_ HG] i c x Ec Ex. destruct (H2 i c) as (x' & q & Ex' & Eq & Hq & Hr); auto; [apply nth_lt in Ex; auto|]. exists q. split; auto. replace x with x' by congruence.
      destruct Hr as [?|[->|?]]; auto. specialize (HG _ _ Ec). lia.
    + intros Hb ->. destruct (H3 Hb) as (j & _ & N). congruence.
Qed.

Lemma mat_rows row : In row (mat Dr : xmat) -> length row = n.
Proof using HDr. intros H. apply in_map_iff in H as (r & <- & H). rewrite map_length. auto. Qed.

Lemma means2_fin C : good k Dr C -> @means2 XR n k (mat Dr) C = Ok (mat (rmeans n k Dr C)).
Proof using HDr.
  clear Hk. intros [LC HC].
  assert (Ex : exists M, @means2 XR n k (mat Dr) C = Ok M).
  { unfold means2.
    destruct (foldi_steps (fun _ (st : list (list (F XR)) * list Z) => length (fst st) = k /\ length (snd st) = k /\ forall m, In m (fst st) -> length m = n)
      (fun i (st : list (list (F XR)) * list Z) row => p <- idx C i; s <- idxZ (snd st) p; Mp <- idxZ (fst st) p; Mp <- addRow n Mp row;
          Ok (set_nth (Z.to_nat p) Mp (fst st), set_nth (Z.to_nat p) (s + 1) (snd st))) (mat Dr : xmat)) with (s := (repeat (repeat (@fz XR 0) n) k, repeat 0 k)) as ([Ms Ss] & E & L1 & L2 & L3).
    - intros i [Ms Ss] row Er (L1 & L2 & L3). cbn [fst snd] in *. pose proof (mat_rows _ (nth_error_In _ _ Er)) as Lr. apply nth_lt in Er. rewrite map_length in Er.
      destruct (nth_error C i) as [c|] eqn:Ec; [|apply nth_error_None in Ec; lia]. rewrite (ok_idx _ _ _ Ec). cbn [bind]. pose proof (HC _ _ Ec) as Hc.
      destruct (nth_error Ss (Z.to_nat c)) as [s|] eqn:Es; [|apply nth_error_None in Es; lia]. destruct (nth_error Ms (Z.to_nat c)) as [m|] eqn:Em; [|apply nth_error_None in Em; lia].
      unfold idxZ. destruct (Z.ltb_spec c 0); [lia|]. rewrite (ok_idx _ _ _ Es). cbn [bind]. rewrite (ok_idx _ _ _ Em). cbn [bind].
      pose proof (L3 m (nth_error_In _ _ Em)) as Lm. rewrite addRow_l by auto. cbn [bind]. eexists. split; [reflexivity|]. cbn [fst snd]. rewrite !set_nth_length. split; auto. split; auto.
      intros m' Hm'. apply In_nth_error in Hm' as (j & Ej). destruct (Nat.eq_dec j (Z.to_nat c)) as [->|Nj].
      + rewrite nth_error_set_nth_same in Ej by (eapply nth_lt; eauto). injection Ej as <-. rewrite vadd_length by congruence. auto.
      + rewrite nth_error_set_nth_diff in Ej by auto. apply L3. eapply nth_error_In; eauto.
    - cbn [fst snd]. rewrite !repeat_length. split; auto. split; auto. intros m Hm. apply repeat_spec in Hm. subst m. apply repeat_length.
    - rewrite E. cbn [bind fst snd] in *. apply mapi_total. intros i x Exi. destruct (nth_error Ss i) as [s|] eqn:Es; [|apply nth_error_None in Es; apply nth_lt in Exi; lia].
      cbn [Nat.add]. rewrite (ok_idx _ _ _ Es). cbn [bind]. eauto. }
  destruct Ex as (M & E). rewrite E. apply means2_l in E as (-> & _ & _); [|exact mat_rows]. f_equal. unfold rmeans. rewrite map_map. apply map_ext. intros p.
  pose proof (members_map (map Fin) C p Dr) as Em. change (@members (list (F XR)) C p (mat Dr)) with (@members (list xreal) C p (mat Dr)). rewrite Em.
  change (map (fun e : Z * list R => (fst e, map Fin (snd e))) (members C p Dr)) with (map lift (members C p Dr)). apply centroid_fin.
  intros [z x] He. apply members_in in He as (i & _ & Ei & _); auto. apply HDr. eapply nth_error_In; eauto.
Qed.

Lemma rmeans_centres C : centres (rmeans n k Dr C).
Proof using.
  clear HDr Hk. split; [unfold rmeans; rewrite map_length, seq_length; auto|]. intros m H. unfold rmeans in H. apply in_map_iff in H as (p & <- & _). apply rcent_length.
Qed.

Lemma good_begun C : good k Dr C -> begun C.
Proof using. intros [L H]. split; auto. intros i c E. right. exact (H i c E). Qed.

Lemma lloyd_fin : forall fuel C, good k Dr C -> (rank n k Dr C < fuel)%nat -> exists C', @lloyd XR PInf (@euclideanF XR) fuel n k (mat Dr) C (mat (rmeans n k Dr C)) = Ok C' /\ good k Dr C'.
Proof using HDr Hk.
  induction fuel as [|f IH]; intros C G L; [lia|]. cbn [lloyd]. destruct (assign_fin (rmeans n k Dr C) C (rmeans_centres C) (good_begun C G)) as (C' & b & -> & G' & Hm & Hb). cbn [bind fst snd].
  rewrite means2_fin by auto. cbn [bind]. destruct b; [|eauto]. apply IH; auto. pose proof (round_rank n k Dr C C' G G' (Hm G) (Hb eq_refl)). lia.
Qed.

Lemma lloyd_first M C fuel : centres M -> begun C -> (k ^ length Dr < fuel)%nat -> exists C', @lloyd XR PInf (@euclideanF XR) (S fuel) n k (mat Dr) C (mat M) = Ok C' /\ good k Dr C'.
Proof using HDr Hk.
  intros HM HC L. cbn [lloyd]. destruct (assign_fin M C HM HC) as (C' & b & -> & G' & _). cbn [bind fst snd]. rewrite means2_fin by auto. cbn [bind]. destruct b; [|eauto].
  apply lloyd_fin; auto. pose proof (rank_bound n k Dr C'). lia.
Qed.

(** *** The seeds *)
Section Seeds.
Variable rnd : nat -> nat -> nat.
Hypothesis Hkm : (k <= length Dr)%nat.
Hypothesis Hfair : fair rnd (length Dr).
Hypothesis Hrnd : forall c, (rnd c (length Dr) < length Dr)%nat.

Lemma draw_range fuel : forall c seen m x, (forall c, (rnd c m < m)%nat) -> draw rnd fuel c seen m = Ok x -> (fst x < m)%nat.
Proof using.
  clear. induction fuel as [|f IH]; intros c seen m x H E; cbn [draw] in E; [discriminate|]. destruct (Nat.eqb m 0); [discriminate|]. destruct (memn (rnd c m) seen); [eapply IH; eauto|]. injection E as <-. cbn [fst]. auto.
Qed.

Lemma forgy_fin i st : (i < k)%nat -> @seeded XR n k (mat Dr) i st -> exists f0 st', forall fuelR, (f0 <= fuelR)%nat -> @forgyF XR rnd fuelR (mat Dr) st i = Ok st'.
Proof using Hkm Hfair Hrnd.
  clear HDr Hk. destruct st as [[[c Rr] C] M]. intros Hi (LC & LM & rs & Lr & ND & HR & H1 & H2 & H3). rewrite map_length in LC.
  destruct (missing rs (length Dr) ND ltac:(lia)) as (r & Hr & Nr).
  destruct (draw_ends rnd (length Dr) Rr r Hfair Hr ltac:(rewrite HR; auto) c) as (f & x & E). pose proof (draw_range _ _ _ _ _ Hrnd E) as Hx.
  unfold forgyF. rewrite map_length. destruct (nth_error Dr (fst x)) as [row|] eqn:Er; [|apply nth_error_None in Er; lia].
  destruct (nth_error C (fst x)) as [cc|] eqn:Ec; [|apply nth_error_None in Ec; lia]. destruct (nth_error M i) as [mi|] eqn:Em; [|apply nth_error_None in Em; lia].
  exists f. eexists. intros fuelR Hf. rewrite (draw_mono _ _ _ _ _ _ _ E Hf). cbn [bind]. rewrite (idx_mat _ _ _ Er). cbn [bind]. rewrite (ok_idx _ _ _ Ec). cbn [bind]. rewrite (ok_idx _ _ _ Em). cbn [bind]. reflexivity.
Qed.

Lemma seeds_fin j : forall i st, (i + j = k)%nat -> @seeded XR n k (mat Dr) i st -> exists f0 st', @seeded XR n k (mat Dr) k st' /\ forall fuelR, (f0 <= fuelR)%nat -> foldr_ (@forgyF XR rnd fuelR (mat Dr)) (seq i j) st = Ok st'.
Proof using HDr Hkm Hfair Hrnd.
  clear Hk. induction j as [|j IH]; intros i st Hij Hs.
  - assert (i = k) by lia. subst i. exists 0%nat, st. split; auto.
  - destruct (forgy_fin i st ltac:(lia) Hs) as (f1 & s1 & E1). pose proof (@forgyF_l XR rnd n k (mat Dr) mat_rows f1 st i s1 ltac:(lia) Hs (E1 f1 (le_n _))) as Hs1.
    destruct (IH (S i) s1 ltac:(lia) Hs1) as (f2 & s2 & Hs2 & E2). exists (Nat.max f1 f2), s2. split; auto. intros fuelR Hf. cbn [seq foldr_]. rewrite E1 by lia. cbn [bind]. apply E2. lia.
Qed.

Lemma seeded_begun c Rr C M : @seeded XR n k (mat Dr) k (c, Rr, C, M) -> begun C /\ exists Mr, M = mat Mr /\ centres Mr.
Proof using HDr.
  clear Hk Hkm Hfair Hrnd. intros (LC & LM & rs & Lr & ND & HR & H1 & H2 & H3). rewrite map_length in LC, H2. split.
  - split; auto. intros i x Ex. destruct (in_dec Nat.eq_dec i rs) as [Hin|Hin].
    + apply In_nth_error in Hin as (p & Ep). destruct (H1 p i Ep) as (E & _). right. replace x with (Z.of_nat p) by congruence. apply nth_lt in Ep. split; lia.
    + left. apply nth_lt in Ex as Hx. rewrite (H2 i Hin ltac:(lia)) in Ex. congruence.
  - assert (G : forall q, (q <= k)%nat -> exists Mr, firstn q M = mat Mr /\ length Mr = q /\ forall m, In m Mr -> length m = n).
    { induction q as [|q IH]; intros Hq; [exists []; split; [auto|split; [auto|intros m []]]|]. destruct (IH ltac:(lia)) as (Mr & E & L & H). destruct (nth_error rs q) as [r|] eqn:Er; [|apply nth_error_None in Er; lia].
      destruct (H1 q r Er) as (_ & row & E1 & E2). rewrite nth_error_map in E1. destruct (nth_error Dr r) as [rr|] eqn:Err; [|discriminate]. injection E1 as <-.
      exists (Mr ++ [rr]). split; [|split; [rewrite app_length; simpl; lia|]].
      - rewrite map_app, <- E. cbn [map]. clear - E2. revert q E2. induction M as [|m M IH]; intros [|q] E2; try discriminate; cbn [nth_error] in E2; [injection E2 as ->; cbn [firstn]; destruct M; auto|]. change (firstn (S (S q)) (m :: M)) with (m :: firstn (S q) M). rewrite (IH q E2). reflexivity.
      - intros m Hm. apply in_app_or in Hm as [Hm|[<-|[]]]; auto. apply HDr. eapply nth_error_In; eauto. }
    destruct (G k (le_n _)) as (Mr & E & L & H). exists Mr. rewrite <- LM, firstn_all in E. split; auto. split; auto.
Qed.

Lemma collect_fin C : good k Dr C -> exists O,
  foldi (fun i O row => c <- idx C i; m <- idxZ O c; Ok (set_nth (Z.to_nat c) (fput m (Z.of_nat i) (copyF (repeat (@fz XR 0) n) row)) O)) (mat Dr) (repeat [] k) = Ok O.
Proof using.
  clear HDr Hk Hkm Hfair Hrnd. intros [LC HC]. destruct (foldi_steps (fun _ (O : list (@frows XR)) => length O = k)
    (fun i O row => c <- idx C i; m <- idxZ O c; Ok (set_nth (Z.to_nat c) (fput m (Z.of_nat i) (copyF (repeat (@fz XR 0) n) row)) O)) (mat Dr : xmat)) with (s := repeat (@nil (Z * list (F XR))) k) as (O & E & _); [|apply repeat_length|exists O; exact E].
  intros i O row Er L. apply nth_lt in Er. rewrite map_length in Er. destruct (nth_error C i) as [c|] eqn:Ec; [|apply nth_error_None in Ec; lia]. rewrite (ok_idx _ _ _ Ec). cbn [bind]. pose proof (HC _ _ Ec).
  destruct (nth_error O (Z.to_nat c)) as [m|] eqn:Em; [|apply nth_error_None in Em; lia]. unfold idxZ. destruct (Z.ltb_spec c 0); [lia|]. rewrite (ok_idx _ _ _ Em). cbn [bind]. eexists. split; [reflexivity|]. rewrite set_nth_length. auto.
Qed.

Lemma oldKMeansF_ends : exists f0, forall fuelR fuel, (f0 <= fuelR)%nat -> (k ^ length Dr + 2 <= fuel)%nat ->
  exists O, @oldKMeansF XR PInf (@euclideanF XR) rnd fuelR fuel k (mat Dr) = Ok O.
Proof using HDr Hk Hkm Hfair Hrnd.
  destruct (seeds_fin k 0 (0%nat, [], repeat (-1) (length (mat Dr)), repeat (repeat (@fz XR 0) n) k) eq_refl) as (f0 & [[[c Rr] C] M] & Hs & Es); [exact (@seeded_start XR n k (mat Dr))|].
  exists f0. intros fuelR fuel HR HF. unfold oldKMeansF. rewrite map_length. destruct (Nat.ltb_spec (length Dr) k); [lia|].
  destruct (nth_error Dr 0) as [d0|] eqn:E0; [|apply nth_error_None in E0; lia]. rewrite (idx_mat _ _ _ E0). cbn [bind]. rewrite map_length, (HDr d0) by (eapply nth_error_In; eauto).
  rewrite map_length in Es. rewrite (Es fuelR HR). cbn [bind]. destruct (seeded_begun _ _ _ _ Hs) as (HB & Mr & -> & HM).
  destruct fuel as [|fuel]; [lia|]. destruct (lloyd_first Mr C fuel HM HB ltac:(lia)) as (C' & -> & G). cbn [bind]. apply collect_fin. exact G.
Qed.
End Seeds.
End End_.
