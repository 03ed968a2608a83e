(** Proofs about scores. *)
From Verif Require Import Base Res Arith GoMap DataLoops Score ScoreSpec.
Local Open Scope Z_scope.

Section L.
Variable grow : nat -> nat -> nat -> nat.

Lemma append_cases w a n xs w' a' m : (n <= length (arrs w a))%nat -> append grow w a n xs = (w', a', m) ->
  m = (n + length xs)%nat /\ objs w' = objs w /\
  ((a' = a /\ anext w' = anext w /\ (m <= length (arrs w a))%nat /\ arrs w' = upd (arrs w) a (firstn n (arrs w a) ++ xs ++ skipn m (arrs w a))) \/
   (a' = anext w /\ anext w' = S (anext w) /\ (length (arrs w a) < m)%nat /\ exists c, arrs w' = upd (arrs w) (anext w) (firstn n (arrs w a) ++ xs ++ repeat (0, 0) c))).
Proof.
  intros Hn E. unfold append in E. destruct (Nat.leb_spec (n + length xs) (length (arrs w a))) as [H|H]; injection E as <- <- <-; simpl; repeat (split; [reflexivity|]).
  - left. auto.
  - right. eauto.
Qed.

Lemma in_place_length {T} n (xs cells : list T) : (n + length xs <= length cells)%nat -> length (firstn n cells ++ xs ++ skipn (n + length xs) cells) = length cells.
Proof. intros H. rewrite !app_length, firstn_length, skipn_length. lia. Qed.
Lemma firstn_mid {T} n (xs cells rest : list T) : (n <= length cells)%nat -> firstn (n + length xs) (firstn n cells ++ xs ++ rest) = firstn n cells ++ xs.
Proof.
  intros H. rewrite app_assoc, firstn_app. rewrite app_length, firstn_length. replace (n + length xs - _)%nat with 0%nat by lia. simpl. rewrite app_nil_r.
  apply firstn_all2. rewrite app_length, firstn_length. lia.
Qed.
Lemma firstn_pre {T} k n (cells rest : list T) : (k <= n <= length cells)%nat -> firstn k (firstn n cells ++ rest) = firstn k cells.
Proof. intros H. rewrite firstn_app, firstn_length. replace (k - _)%nat with 0%nat by lia. simpl. rewrite app_nil_r, firstn_firstn. f_equal. lia. Qed.

(** What append guarantees in every state. *)
Lemma append_ok w a n xs w' a' m : (n <= length (arrs w a))%nat -> (a < anext w)%nat -> arrs w 0%nat = [] -> (0 < anext w)%nat ->
  append grow w a n xs = (w', a', m) ->
  m = (n + length xs)%nat /\ objs w' = objs w /\ arrs w' 0%nat = [] /\ (anext w <= anext w')%nat /\ (a' < anext w')%nat /\ (m <= length (arrs w' a'))%nat /\
  firstn m (arrs w' a') = firstn n (arrs w a) ++ xs /\
  (forall b, (b < anext w)%nat -> length (arrs w' b) = length (arrs w b)) /\
  (forall b, (b < anext w)%nat -> b <> a -> arrs w' b = arrs w b) /\
  (n = length (arrs w a) -> forall b, (b < anext w)%nat -> arrs w' b = arrs w b).
Proof.
  intros Hn Ha H0 Hp E. destruct (append_cases _ _ _ _ _ _ _ Hn E) as (-> & Ho & [(-> & Hnx & Hm & Hr)|(-> & Hnx & Hm & c & Hr)]); (split; [auto|]); (split; [auto|]).
  - assert (Hl : forall b, length (arrs w' b) = length (arrs w b)).
    { intros b. rewrite Hr. destruct (Nat.eq_dec b a) as [->|Hb]; [rewrite upd_same; apply in_place_length; auto|rewrite upd_diff; auto]. }
    split; [rewrite <- length_zero_iff_nil, Hl, H0; auto|]. split; [lia|]. split; [lia|]. split; [rewrite Hl; auto|].
    split; [rewrite Hr, upd_same; apply firstn_mid; auto|]. split; [auto|]. split; [intros b _ Hb; rewrite Hr, upd_diff; auto|].
    intros Hf b _. rewrite Hr. destruct (Nat.eq_dec b a) as [->|Hb]; [|rewrite upd_diff; auto]. rewrite upd_same.
    destruct xs as [|x xs]; [|simpl in Hm; lia]. simpl. rewrite Nat.add_0_r. apply firstn_skipn.
  - assert (Hb : forall b, (b < anext w)%nat -> arrs w' b = arrs w b) by (intros b Hb; rewrite Hr, upd_diff; auto; lia).
    split; [rewrite Hb; auto|]. split; [lia|]. split; [lia|]. rewrite Hr, upd_same. split; [rewrite !app_length, firstn_length; lia|]. split; [apply firstn_mid; auto|].
    rewrite <- Hr. split; [intros b H; rewrite Hb; auto|]. auto.
Qed.

Lemma nth_error_lt_some {T} (l : list T) i : (i < length l)%nat -> exists x, nth_error l i = Some x.
Proof. intros H. destruct (nth_error l i) eqn:E; eauto. apply nth_error_None in E. lia. Qed.
Lemma set_nth_cases {T} i (x : T) l j y : nth_error (set_nth i x l) j = Some y -> (j = i /\ y = x) \/ (j <> i /\ nth_error l j = Some y).
Proof.
  intros H. destruct (Nat.eq_dec j i) as [->|Hne].
  - left. split; auto. assert (i < length l)%nat by (rewrite <- (set_nth_length i x); apply nth_error_Some; congruence). rewrite nth_error_set_nth_same in H; congruence.
  - right. rewrite nth_error_set_nth_diff in H; auto.
Qed.
Lemma set_nth_snoc {T} (l : list T) x y : set_nth (length l) y (l ++ [x]) = l ++ [y].
Proof. induction l as [|h t IH]; simpl; f_equal; auto. Qed.

(** Register in any state. *)
Lemma register_ok w s p e sc : wf w -> nth_error (objs w) s = Some sc ->
  exists w' sc', register grow w s p e = Ok w' /\ wf w' /\ nth_error (objs w') s = Some sc' /\ length (objs w') = length (objs w) /\
    (forall t, t <> s -> nth_error (objs w') t = nth_error (objs w) t) /\
    view w' sc' = view w sc ++ [(p, e)] /\ len sc' = S (len sc) /\
    hits sc' = hits sc + (if matches (p, e) then 1 else 0) /\ misses sc' = misses sc + (if matches (p, e) then 0 else 1) /\ total sc' = total sc + 1.
Proof.
  intros (H0 & Hp & Hf) Hs. unfold register. rewrite (idx_ok _ _ _ Hs). cbn [bind].
  destruct (append grow w (arr sc) (len sc) [(p, e)]) as [[w1 a] n] eqn:E. destruct (Hf _ _ Hs) as [Hl Ha].
  destruct (append_ok _ _ _ _ _ _ _ Hl Ha H0 Hp E) as (-> & Ho & H1 & Hn & Ha' & Hm & Hv & Hlen & Hoth & _).
  eexists. eexists. split; [reflexivity|]. assert (Hs' : (s < length (objs w1))%nat) by (rewrite Ho; apply nth_error_Some; congruence). split.
  { split; [exact H1|]. split; [simpl; lia|]. intros i sc' Hi. simpl in Hi. apply set_nth_cases in Hi as [[-> ->]|[Hne Hi]]; unfold fits; simpl.
    - auto.
    - rewrite Ho in Hi. destruct (Hf _ _ Hi) as [Hl' Ha'']. rewrite Hlen by auto. lia. }
  simpl. rewrite nth_error_set_nth_same by auto. split; [reflexivity|]. rewrite set_nth_length, Ho. split; auto.
  split; [intros t Ht; rewrite nth_error_set_nth_diff; auto; congruence|].
  unfold view. simpl. split; [exact Hv|]. split; [lia|]. unfold matches. simpl. destruct (p =? e); split; [|split| |split]; lia.
Qed.

(** Counters and lengths in any state. *)
Definition counted (w : world) : Prop := forall i sc, nth_error (objs w) i = Some sc -> hits sc + misses sc = total sc /\ total sc = Z.of_nat (len sc).

Lemma view_length w sc : fits w sc -> length (view w sc) = len sc.
Proof. intros [H _]. unfold view. rewrite firstn_length. lia. Qed.

Lemma newScore_wf w : wf w -> wf (fst (newScore w)).
Proof.
  intros (H0 & Hp & Hf). split; [exact H0|]. split; [exact Hp|]. intros i sc Hi. simpl in Hi. destruct (Nat.lt_ge_cases i (length (objs w))) as [Hl|Hl].
  - rewrite nth_error_app1 in Hi by auto. apply (Hf i). auto.
  - rewrite nth_error_app2 in Hi by auto. destruct (i - length (objs w))%nat as [|k]; [|destruct k; discriminate]. injection Hi as <-. split; simpl; lia.
Qed.

(** A slot gets the result of an append; the slot may be new. *)
Lemma put_wf w a n xs w' a' m k sc : wf w -> (n <= length (arrs w a))%nat -> (a < anext w)%nat -> append grow w a n xs = (w', a', m) ->
  arr sc = a' -> len sc = m -> wf (setObj w' k sc).
Proof.
  intros (H0 & Hp & Hf) Hn Ha E E1 E2. destruct (append_ok _ _ _ _ _ _ _ Hn Ha H0 Hp E) as (Em & Ho & H1 & Hx & Ha' & Hm & Hv & Hlen & _).
  split; [exact H1|]. split; [simpl; lia|]. intros i sc' Hi. simpl in Hi. apply set_nth_cases in Hi as [[_ ->]|[_ Hi]]; unfold fits; simpl.
  - subst. auto.
  - rewrite Ho in Hi. destruct (Hf _ _ Hi) as [Hl' Ha'']. rewrite Hlen by auto. lia.
Qed.

Lemma perform_counted w c : wf w -> counted w -> refers_ok (length (objs w)) c ->
  exists w', perform grow w c = Ok w' /\ wf w' /\ counted w' /\ length (objs w') = (length (objs w) + creates c)%nat.
Proof.
  intros W C R. pose proof W as (H0 & Hp & Hf). destruct c as [|s p e|s t|s t|s]; simpl in R.
  - eexists. split; [reflexivity|]. split; [apply newScore_wf; auto|]. split; [|simpl; rewrite app_length; auto].
    intros i sc Hi. simpl in Hi. destruct (Nat.lt_ge_cases i (length (objs w))) as [Hl|Hl]; [rewrite nth_error_app1 in Hi by auto; apply (C i); auto|].
    rewrite nth_error_app2 in Hi by auto. destruct (i - length (objs w))%nat as [|k]; [|destruct k; discriminate]. injection Hi as <-. auto.
  - destruct (nth_error_lt_some _ _ R) as [sc Hs]. destruct (register_ok w s p e sc W Hs) as (w' & sc' & E & W' & Hs' & Hl & Ho & Hv & Hn & Hh & Hm & Ht).
    exists w'. split; [exact E|]. split; auto. split; [|simpl; lia]. intros i sc'' Hi. destruct (Nat.eq_dec i s) as [->|Hne].
    + rewrite Hs' in Hi. injection Hi as <-. destruct (C _ _ Hs). destruct (matches (p, e)); lia.
    + rewrite Ho in Hi by auto. apply (C i). auto.
  - destruct R as [Rs Rt]. destruct (nth_error_lt_some _ _ Rs) as [ss Hs]. destruct (nth_error_lt_some _ _ Rt) as [st Ht]. simpl. unfold merge. rewrite (idx_ok _ _ _ Hs), (idx_ok _ _ _ Ht). cbn [bind].
    destruct (append grow w (arr ss) (len ss) (view w st)) as [[w1 a] n] eqn:E. destruct (Hf _ _ Hs) as [Hl Ha].
    eexists. split; [reflexivity|]. split; [eapply put_wf; eauto|].
    destruct (append_cases _ _ _ _ _ _ _ Hl E) as (-> & Ho & _). split; [|simpl; rewrite set_nth_length, Ho; lia].
    intros i sc Hi. simpl in Hi. apply set_nth_cases in Hi as [[_ ->]|[_ Hi]]; simpl; [|rewrite Ho in Hi; apply (C i); auto].
    rewrite (view_length w st) by (apply (Hf t); auto). destruct (C _ _ Hs), (C _ _ Ht). lia.
  - destruct R as [Rs Rt]. destruct (nth_error_lt_some _ _ Rs) as [ss Hs]. destruct (nth_error_lt_some _ _ Rt) as [st Ht]. simpl. unfold add. rewrite (idx_ok _ _ _ Hs), (idx_ok _ _ _ Ht). cbn [bind].
    pose proof (newScore_wf w W) as W1. destruct (newScore w) as [w0 m] eqn:EN. simpl in W1. unfold newScore in EN. injection EN as E0 Em. 
    assert (Hv : view w0 st = view w st) by (subst w0; reflexivity). rewrite Hv.
    destruct (append grow w0 (arr ss) (len ss) (view w st)) as [[w1 a] n] eqn:E.
    assert (Hss : fits w0 ss) by (apply (proj2 (proj2 W1) s); subst w0; simpl; rewrite nth_error_app1; auto). destruct Hss as [Hl Ha].
    eexists. split; [reflexivity|]. simpl. split; [eapply put_wf; eauto|].
    destruct (append_cases _ _ _ _ _ _ _ Hl E) as (-> & Ho & _). split; [|simpl; rewrite set_nth_length, Ho; subst w0; simpl; rewrite app_length; simpl; lia].
    intros i sc Hi. simpl in Hi. rewrite Ho in Hi. subst w0 m. simpl in Hi. rewrite set_nth_snoc in Hi. destruct (Nat.lt_ge_cases i (length (objs w))) as [Hi'|Hi'].
    + rewrite nth_error_app1 in Hi by auto. apply (C i); auto.
    + rewrite nth_error_app2 in Hi by auto. destruct (i - length (objs w))%nat as [|k]; [|destruct k; discriminate]. injection Hi as <-. simpl.
      rewrite (view_length w st) by (apply (Hf t); auto). destruct (C _ _ Hs), (C _ _ Ht). lia.
  - destruct (nth_error_lt_some _ _ R) as [sc Hs]. simpl. unfold clear. rewrite (idx_ok _ _ _ Hs). cbn [bind]. eexists. split; [reflexivity|]. split.
    { split; [exact H0|]. split; [exact Hp|]. intros i sc' Hi. simpl in Hi. apply set_nth_cases in Hi as [[_ ->]|[_ Hi]]; [split; simpl; lia|apply (Hf i); auto]. }
    split; [|simpl; rewrite set_nth_length; lia]. intros i sc' Hi. simpl in Hi. apply set_nth_cases in Hi as [[_ ->]|[_ Hi]]; [auto|apply (C i); auto].
Qed.

Lemma well_formed_run : forall cs w, wf w -> counted w -> well_formed (length (objs w)) cs ->
  exists w', foldr_ (perform grow) cs w = Ok w' /\ wf w' /\ counted w'.
Proof.
  induction cs as [|c cs IH]; intros w W C H; simpl; [eauto|]. destruct H as [R H].
  destruct (perform_counted w c W C R) as (w' & E & W' & C' & Hl). rewrite E. simpl. apply IH; auto. rewrite Hl. auto.
Qed.
Lemma wf0 : wf world0.
Proof. split; [reflexivity|]. split; [simpl; lia|]. intros [|i] sc H; discriminate. Qed.
Lemma counted0 : counted world0.
Proof. intros [|i] sc H; discriminate. Qed.

Lemma counts_always_l cs : well_formed 0 cs -> exists w, performs grow cs = Ok w /\ wf w /\
  forall i sc, nth_error (objs w) i = Some sc -> hits sc + misses sc = total sc /\ total sc = Z.of_nat (length (view w sc)).
Proof.
  intros H. destruct (well_formed_run cs world0 wf0 counted0 H) as (w & E & W & C). exists w. split; auto. split; auto. intros i sc Hi. rewrite (view_length w sc) by (apply (proj2 (proj2 W) i); auto). apply (C i); auto.
Qed.

(** * Refinement: no two scores share spare capacity. *)
Definition sep (w : world) : Prop := forall i j si sj, i <> j -> nth_error (objs w) i = Some si -> nth_error (objs w) j = Some sj -> arr si = arr sj -> len si = length (arrs w (arr si)).
Definition holds (w : world) (ls : list (list (Z * Z))) : Prop := Forall2 (fun sc l => view w sc = l /\ tallies sc l) (objs w) ls.

Lemma holds_at w ls i sc : holds w ls -> nth_error (objs w) i = Some sc -> view w sc = nth i ls [] /\ tallies sc (nth i ls []) /\ nth_error ls i = Some (nth i ls []).
Proof.
  unfold holds. intros H. revert i. induction H as [|s l ss ls [Hv Ht] _ IH]; intros [|i] Hi; simpl in *; try discriminate.
  - injection Hi as <-. auto.
  - apply IH. auto.
Qed.
Lemma holds_intro w ls : length (objs w) = length ls -> (forall i sc l, nth_error (objs w) i = Some sc -> nth_error ls i = Some l -> view w sc = l /\ tallies sc l) -> holds w ls.
Proof.
  unfold holds. generalize (objs w) as os. intros os. revert ls. induction os as [|o os IH]; intros [|l ls] Hl H; simpl in Hl; try lia; constructor.
  - apply (H 0%nat); auto.
  - apply IH; [lia|]. intros i. apply (H (S i)).
Qed.
Lemma holds_length w ls : holds w ls -> length (objs w) = length ls.
Proof. unfold holds. induction 1; simpl; auto. Qed.

Lemma filter_snoc_len {T} (f : T -> bool) l x : length (filter f (l ++ [x])) = (length (filter f l) + if f x then 1 else 0)%nat.
Proof. rewrite filter_app, app_length. simpl. destruct (f x); auto. Qed.
Lemma tallies_app a b la lb arr' len' : tallies a la -> tallies b lb -> tallies (mkS (hits a + hits b) (misses a + misses b) (total a + total b) arr' len') (la ++ lb).
Proof. unfold tallies. simpl. intros (A1 & A2 & A3 & A4) (B1 & B2 & B3 & B4). rewrite !filter_app, !app_length. lia. Qed.

(** The effect of writing an append's result into slot k, where slot k is either the slot the slice
    came from, or a new one and the slice was full. *)
Lemma put_sep w a n xs w' a' m k sc ls :
  wf w -> sep w -> (n <= length (arrs w a))%nat -> (a < anext w)%nat -> append grow w a n xs = (w', a', m) -> arr sc = a' -> len sc = m -> (k < length (objs w))%nat ->
  (forall j sj, j <> k -> nth_error (objs w) j = Some sj -> arr sj = a -> n = length (arrs w a)) ->
  (forall j sj, j <> k -> nth_error (objs w) j = Some sj -> arr sj = a -> len sj = length (arrs w a)) ->
  (length (objs w) = length ls) ->
  (forall j sj l, j <> k -> nth_error (objs w) j = Some sj -> nth_error ls j = Some l -> view w sj = l /\ tallies sj l) ->
  tallies sc (firstn n (arrs w a) ++ xs) ->
  sep (setObj w' k sc) /\ holds (setObj w' k sc) (set_nth k (firstn n (arrs w a) ++ xs) ls).
Proof.
  intros W S Hn Ha E Ea El Hk Hshare Hshare2 Hlen Hls Ht. pose proof W as (H0 & Hp & Hf).
  destruct (append_ok _ _ _ _ _ _ _ Hn Ha H0 Hp E) as (Em & Ho & H1 & Hx & Ha' & Hm & Hv & Hcells & Hoth & Hfull).
  assert (Hkeep : forall j sj, j <> k -> nth_error (objs w) j = Some sj -> arrs w' (arr sj) = arrs w (arr sj)).
  { intros j sj Hj Hsj. destruct (Hf _ _ Hsj) as [_ Hlt]. destruct (Nat.eq_dec (arr sj) a) as [Hea|Hea]; [|apply Hoth; auto]. apply Hfull; auto. eapply Hshare; eauto. }
  split.
  - assert (Hk' : forall j sj, j <> k -> nth_error (objs w) j = Some sj -> arr sj = a' -> len sj = length (arrs w' (arr sj)) /\ m = length (arrs w' a')).
    { intros j sj Hj Hsj Heq. destruct (append_cases _ _ _ _ _ _ _ Hn E) as (_ & _ & [(-> & _ & Hmm & Hr)|(-> & _)]).
      - rewrite (Hkeep j) by auto. rewrite Heq. split; [eapply Hshare2; eauto|]. rewrite Hr, upd_same. pose proof (Hshare _ _ Hj Hsj Heq) as Hna.
        rewrite Em in Hmm |- *. rewrite in_place_length by auto. lia.
      - destruct (Hf _ _ Hsj) as [_ Hlt]. lia. }
    intros i j si sj Hij Hi Hj Heq. simpl in *. rewrite Ho in Hi, Hj. apply set_nth_cases in Hi as [[-> ->]|[Hik Hi]]; apply set_nth_cases in Hj as [[-> ->]|[Hjk Hj]]; try lia.
    + rewrite El, Ea. apply (Hk' j sj); auto. congruence.
    + apply (Hk' i si); auto. congruence.
    + rewrite (Hkeep i) by auto. apply (S i j si sj); auto.
  - apply holds_intro; [simpl; rewrite !set_nth_length; congruence|]. intros i si l Hi Hl. simpl in Hi. rewrite Ho in Hi. apply set_nth_cases in Hi as [[-> ->]|[Hik Hi]].
    + rewrite nth_error_set_nth_same in Hl by lia. injection Hl as <-. split; auto. unfold view. simpl. rewrite Ea, El. auto.
    + rewrite nth_error_set_nth_diff in Hl by auto. destruct (Hls i si l Hik Hi Hl) as [Hv' Ht']. split; auto. unfold view in *. simpl. rewrite (Hkeep i) by auto. auto.
Qed.

Lemma sep_sym w s t ss st : sep w -> s <> t -> nth_error (objs w) s = Some ss -> nth_error (objs w) t = Some st -> arr st = arr ss -> len ss = length (arrs w (arr ss)) /\ len st = length (arrs w (arr ss)).
Proof. intros S Hst Hs Ht E. split; [eapply (S s t); eauto|]. rewrite <- E. eapply (S t s); eauto. Qed.

Lemma perform_refines w ls c : wf w -> sep w -> holds w ls -> refers_ok (length (objs w)) c -> (forall s t, c = CAdd s t -> full w s) ->
  exists w', perform grow w c = Ok w' /\ wf w' /\ sep w' /\ holds w' (says ls c) /\ length (objs w') = (length (objs w) + creates c)%nat.
Proof.
  intros W S H R Hadd. pose proof W as (H0 & Hp & Hf). pose proof (holds_length _ _ H) as Hll.
  assert (Hls : forall k j sj l, j <> k -> nth_error (objs w) j = Some sj -> nth_error ls j = Some l -> view w sj = l /\ tallies sj l).
  { intros k j sj l _ Hj Hl. destruct (holds_at _ _ _ _ H Hj) as (A & B & C). rewrite C in Hl. injection Hl as <-. auto. }
  destruct c as [|s p e|s t|s t|s]; simpl in R.
  - eexists. split; [reflexivity|]. split; [apply newScore_wf; auto|]. split; [|split; [|simpl; rewrite app_length; auto]].
    + intros i j si sj Hij Hi Hj E. simpl in *.
      assert (Hnew : forall i sc, nth_error (objs w ++ [mkS 0 0 0 0 0]) i = Some sc -> nth_error (objs w) i = Some sc \/ sc = mkS 0 0 0 0 0).
      { intros i0 sc Hi0. destruct (Nat.lt_ge_cases i0 (length (objs w))) as [Hlt|Hge]; [rewrite nth_error_app1 in Hi0 by auto; auto|].
        rewrite nth_error_app2 in Hi0 by auto. destruct (i0 - length (objs w))%nat as [|k]; [|destruct k; discriminate]. injection Hi0 as <-. auto. }
      assert (Hz : arr si = 0%nat -> len si = length (arrs w (arr si))).
      { intros Hz. destruct (Hnew _ _ Hi) as [Hi' | ->]; [|simpl; rewrite H0; auto]. destruct (Hf _ _ Hi') as [Hl _]. rewrite Hz, H0 in *. simpl in *. lia. }
      destruct (Hnew _ _ Hi) as [Hi' | ->]; [|apply Hz; auto]. destruct (Hnew _ _ Hj) as [Hj' | ->]; [apply (S i j si sj); auto|apply Hz; auto].
    + unfold holds. simpl. apply Forall2_app; [exact H|]. repeat constructor.
  - destruct (nth_error_lt_some _ _ R) as [sc Hs]. destruct (holds_at _ _ _ _ H Hs) as (Hv & (T1 & T2 & T3 & T4) & Hn).
    unfold perform, register. rewrite (idx_ok _ _ _ Hs). cbn [bind].
    destruct (append grow w (arr sc) (len sc) [(p, e)]) as [[w1 a] n] eqn:E. destruct (Hf _ _ Hs) as [Hl Ha].
    eexists. split; [reflexivity|]. split; [eapply put_wf; eauto|].
    destruct (append_cases _ _ _ _ _ _ _ Hl E) as (En & Ho & _). 
    destruct (put_sep w (arr sc) (len sc) [(p, e)] w1 a n s (mkS (if p =? e then hits sc + 1 else hits sc) (if p =? e then misses sc else misses sc + 1) (total sc + 1) a n) ls) as [S' H']; auto.
    { intros j sj Hj Hsj Heq. apply (proj1 (sep_sym w s j sc sj S (not_eq_sym Hj) Hs Hsj Heq)). }
    { intros j sj Hj Hsj Heq. apply (proj2 (sep_sym w s j sc sj S (not_eq_sym Hj) Hs Hsj Heq)). }
    { apply Hls. }
    { fold (view w sc). rewrite Hv. unfold tallies. simpl. rewrite !filter_snoc_len, app_length. unfold matches at 2 4. simpl. destruct (p =? e); simpl; lia. }
    split; [exact S'|]. split; [|simpl; rewrite set_nth_length, Ho; lia]. fold (view w sc) in H'. rewrite Hv in H'. exact H'.
  - destruct R as [Rs Rt]. destruct (nth_error_lt_some _ _ Rs) as [ss Hs]. destruct (nth_error_lt_some _ _ Rt) as [st Ht].
    destruct (holds_at _ _ _ _ H Hs) as (Hv & Hts & Hn). destruct (holds_at _ _ _ _ H Ht) as (Hvt & Htt & Hnt).
    unfold perform, merge. rewrite (idx_ok _ _ _ Hs), (idx_ok _ _ _ Ht). cbn [bind].
    destruct (append grow w (arr ss) (len ss) (view w st)) as [[w1 a] n] eqn:E. destruct (Hf _ _ Hs) as [Hl Ha].
    eexists. split; [reflexivity|]. split; [eapply put_wf; eauto|].
    destruct (append_cases _ _ _ _ _ _ _ Hl E) as (En & Ho & _).
    destruct (put_sep w (arr ss) (len ss) (view w st) w1 a n s (mkS (hits ss + hits st) (misses ss + misses st) (total ss + total st) a n) ls) as [S' H']; auto.
    { intros j sj Hj Hsj Heq. apply (proj1 (sep_sym w s j ss sj S (not_eq_sym Hj) Hs Hsj Heq)). }
    { intros j sj Hj Hsj Heq. apply (proj2 (sep_sym w s j ss sj S (not_eq_sym Hj) Hs Hsj Heq)). }
    { apply Hls. }
    { fold (view w ss). rewrite Hv, Hvt. apply tallies_app; auto. }
    split; [exact S'|]. split; [|simpl; rewrite set_nth_length, Ho; lia]. fold (view w ss) in H'. rewrite Hv, Hvt in H'. exact H'.
  - destruct R as [Rs Rt]. destruct (nth_error_lt_some _ _ Rs) as [ss Hs]. destruct (nth_error_lt_some _ _ Rt) as [st Ht].
    destruct (holds_at _ _ _ _ H Hs) as (Hv & Hts & Hn). destruct (holds_at _ _ _ _ H Ht) as (Hvt & Htt & Hnt).
    pose proof (Hadd s t eq_refl ss Hs) as Hfull. unfold perform, add. rewrite (idx_ok _ _ _ Hs), (idx_ok _ _ _ Ht). cbn [bind].
    destruct (newScore w) as [w0 m] eqn:EN. unfold newScore in EN. injection EN as E0 Em.
    assert (Hv0 : view w0 st = view w st) by (subst w0; reflexivity). rewrite Hv0.
    destruct (append grow w0 (arr ss) (len ss) (view w st)) as [[w1 a] n] eqn:E.
    pose proof (newScore_wf w W) as W0. replace (fst (newScore w)) with w0 in W0 by (subst w0; reflexivity).
    assert (Hs0 : nth_error (objs w0) s = Some ss) by (subst w0; simpl; rewrite nth_error_app1; auto).
    destruct (proj2 (proj2 W0) _ _ Hs0) as [Hl Ha].
    eexists. split; [reflexivity|]. simpl. split; [eapply put_wf; eauto|].
    destruct (append_cases _ _ _ _ _ _ _ Hl E) as (En & Ho & _).
    assert (Hold : forall j sj, j <> m -> nth_error (objs w0) j = Some sj -> nth_error (objs w) j = Some sj).
    { intros j sj Hj Hsj. subst w0 m. simpl in Hsj. destruct (Nat.lt_ge_cases j (length (objs w))) as [Hlt|Hge]; [rewrite nth_error_app1 in Hsj by auto; auto|].
      rewrite nth_error_app2 in Hsj by auto. destruct (j - length (objs w))%nat as [|k] eqn:Ek; [lia|]. destruct k; discriminate. }
    destruct (put_sep w0 (arr ss) (len ss) (view w st) w1 a n m (mkS (hits ss + hits st) (misses ss + misses st) (total ss + total st) a n) (ls ++ [[]])) as [S' H']; auto.
    { intros i j si sj Hij Hi Hj Heq. destruct (Nat.eq_dec i m) as [Him|Him]; [|destruct (Nat.eq_dec j m) as [Hjm|Hjm]].
      - subst w0 m i. simpl in Hi. rewrite nth_error_app2, Nat.sub_diag in Hi by auto. injection Hi as <-. simpl. rewrite H0. auto.
      - assert (Hz : arr si = 0%nat) by (subst w0 m j; simpl in Hj; rewrite nth_error_app2, Nat.sub_diag in Hj by auto; injection Hj as <-; exact Heq).
        destruct (Hf _ _ (Hold _ _ Him Hi)) as [Hl0 _]. subst w0. simpl. rewrite Hz, H0 in *. simpl in *. lia.
      - apply Hold in Hi; auto. apply Hold in Hj; auto. subst w0. apply (S i j si sj); auto. }
    { subst w0 m. simpl. rewrite app_length. simpl. lia. }
    { intros. subst w0. exact Hfull. }
    { intros j sj Hj Hsj Heq. apply Hold in Hsj; auto. destruct (Nat.eq_dec j s) as [Hjs|Hjs].
      - subst j. rewrite Hs in Hsj. injection Hsj as <-. subst w0. exact Hfull.
      - subst w0. apply (proj2 (sep_sym w s j ss sj S (not_eq_sym Hjs) Hs Hsj Heq)). }
    { subst w0. simpl. rewrite !app_length. simpl. lia. }
    { intros j sj l Hj Hsj Hlj. pose proof (Hold _ _ Hj Hsj) as Hsj'. assert (j < length (objs w))%nat by (apply nth_error_Some; congruence).
      rewrite nth_error_app1 in Hlj by lia. subst w0. apply (Hls m j); auto. }
    { replace (firstn (len ss) (arrs w0 (arr ss))) with (view w ss) by (subst w0; reflexivity). rewrite Hv, Hvt. apply tallies_app; auto. }
    split; [exact S'|]. split.
    + replace (firstn (len ss) (arrs w0 (arr ss))) with (view w ss) in H' by (subst w0; reflexivity). rewrite Hv, Hvt in H'.
      replace (set_nth m (nth s ls [] ++ nth t ls []) (ls ++ [[]])) with (ls ++ [nth s ls [] ++ nth t ls []]) in H'; [exact H'|]. subst m. rewrite Hll. symmetry. apply set_nth_snoc.
    + rewrite set_nth_length, Ho. subst w0. simpl. rewrite app_length. reflexivity.
  - destruct (nth_error_lt_some _ _ R) as [sc Hs]. unfold perform, clear. rewrite (idx_ok _ _ _ Hs). cbn [bind]. eexists. split; [reflexivity|].
    assert (E : append grow w 0 0 [] = (mkW (upd (arrs w) 0%nat []) (anext w) (objs w), 0%nat, 0%nat)).
    { unfold append. rewrite H0. reflexivity. }
    assert (Hz : forall j sj, nth_error (objs w) j = Some sj -> arr sj = 0%nat -> len sj = 0%nat).
    { intros j sj Hj Hz. destruct (Hf _ _ Hj) as [Hl _]. rewrite Hz, H0 in Hl. simpl in Hl. lia. }
    split.
    { split; [exact H0|]. split; [exact Hp|]. intros i sc' Hi. simpl in Hi. apply set_nth_cases in Hi as [[_ ->]|[_ Hi]]; [split; simpl; lia|apply (Hf i); auto]. }
    split; [|split; [|simpl; rewrite set_nth_length; lia]].
    + intros i j si sj Hij Hi Hj Heq. simpl in *. apply set_nth_cases in Hi as [[-> ->]|[Hik Hi]]; [simpl; rewrite H0; auto|].
      apply set_nth_cases in Hj as [[-> ->]|[Hjk Hj]]; [simpl in Heq; rewrite Heq, H0; eapply Hz; eauto|apply (S i j si sj); auto].
    + apply holds_intro; [simpl; rewrite !set_nth_length; auto|]. intros i si l Hi Hl. simpl in Hi. apply set_nth_cases in Hi as [[-> ->]|[Hik Hi]].
      * simpl in Hl. rewrite nth_error_set_nth_same in Hl by (rewrite <- Hll; auto). injection Hl as <-. repeat split.
      * simpl in Hl. rewrite nth_error_set_nth_diff in Hl by auto. apply (Hls s i si l); auto.
Qed.

Lemma sep0 : sep world0. Proof. intros i j si sj _ Hi. destruct i; discriminate. Qed.

Lemma refines_run cs : well_formed 0 cs -> adds_full grow cs -> exists w, performs grow cs = Ok w /\ wf w /\ sep w /\ holds w (recorded cs).
Proof.
  intros Hw Ha.
  assert (G : forall post pre w, cs = pre ++ post -> performs grow pre = Ok w -> wf w -> sep w -> holds w (recorded pre) -> well_formed (length (objs w)) post ->
    exists w', foldr_ (perform grow) post w = Ok w' /\ wf w' /\ sep w' /\ holds w' (recorded cs)).
  { induction post as [|c post IH]; intros pre w E Ep W S H Hwf; simpl.
    - rewrite app_nil_r in E. subst. eauto.
    - destruct Hwf as [R Hwf]. destruct (perform_refines w _ c W S H R) as (w' & E' & W' & S' & H' & Hl).
      { intros s t ->. eapply Ha; eauto. }
      rewrite E'. simpl. apply (IH (pre ++ [c])); auto.
      + rewrite <- app_assoc. auto.
      + unfold performs in *. rewrite foldr_app, Ep. simpl. rewrite E'. reflexivity.
      + unfold recorded in *. rewrite fold_left_app. exact H'.
      + rewrite Hl. auto. }
  apply (G cs [] world0); auto; [apply wf0|apply sep0|constructor].
Qed.

Lemma no_add_full cs : no_add cs -> adds_full grow cs.
Proof. intros H pre s t post w -> _. exfalso. apply (H s t). apply in_or_app. right. left. auto. Qed.

(** * Confusion matrix. *)
Lemma nth_repeat_zero j n : nth j (repeat 0 n) 0 = 0.
Proof. revert j. induction n as [|n IH]; intros [|j]; simpl; auto. Qed.
Lemma nth_repeat_row i c m : nth i (repeat (repeat 0 c) m) [] = repeat 0 c \/ nth i (repeat (repeat 0 c) m) [] = [].
Proof. revert i. induction m as [|m IH]; intros [|i]; simpl; auto. Qed.
Lemma nth_set_nth {T} i j (x d : T) l : (i < length l)%nat -> nth j (set_nth i x l) d = if Nat.eqb j i then x else nth j l d.
Proof.
  intros H. destruct (Nat.eqb_spec j i) as [E|E].
  - subst. apply nth_error_nth. apply nth_error_set_nth_same. auto.
  - destruct (nth_error l j) as [y|] eqn:Ej.
    + rewrite (nth_error_nth (set_nth i x l) j d (x := y)); [|rewrite nth_error_set_nth_diff; auto]. symmetry. apply nth_error_nth. auto.
    + apply nth_error_None in Ej. rewrite !nth_overflow; auto. rewrite set_nth_length. auto.
Qed.
Lemma sum_set_nth i x l : (i < length l)%nat -> sum (set_nth i x l) = sum l - nth i l 0 + x.
Proof. revert i. induction l as [|h t IH]; intros [|i] H; simpl in *; try lia. unfold sum in *. simpl. rewrite IH by lia. lia. Qed.
Lemma map_set_nth {T U} (f : T -> U) i x l : map f (set_nth i x l) = set_nth i (f x) (map f l).
Proof. revert i. induction l as [|h t IH]; intros [|i]; simpl; auto. f_equal. auto. Qed.

Lemma square_row n M i : square n M -> (i < n)%nat -> exists row, nth_error M i = Some row /\ length row = n /\ nth i M [] = row.
Proof.
  intros [Hl Hr] Hi. destruct (nth_error_lt_some M i) as [row E]; [lia|]. exists row. split; auto. split; [apply Hr; eapply nth_error_In; eauto|apply nth_error_nth; auto].
Qed.

Lemma confusion_ok (c : nat) l : (forall p e, In (p, e) l -> 0 <= p < Z.of_nat c /\ 0 <= e < Z.of_nat c) ->
  exists M, foldr_ (fun M p => row <- idxZ M (snd p); x <- idxZ row (fst p);
      Ok (set_nth (Z.to_nat (snd p)) (set_nth (Z.to_nat (fst p)) (x + 1) row) M)) l (repeat (repeat 0 c) c) = Ok M /\
    square c M /\ (forall e p, (e < c)%nat -> (p < c)%nat -> cell M e p = Z.of_nat (count_occ pair_dec l (Z.of_nat p, Z.of_nat e))) /\
    total_of M = Z.of_nat (length l) /\ trace_of M = Z.of_nat (length (filter matches l)).
Proof.
  induction l as [|[p e] l IH] using rev_ind; intros Hl.
  - exists (repeat (repeat 0 c) c). split; [reflexivity|]. split; [split; [apply repeat_length|]|].
    { intros row Hr. apply repeat_spec in Hr. subst. apply repeat_length. }
    assert (Hc : forall i j, cell (repeat (repeat 0 c) c) i j = 0).
    { intros i j. unfold cell. destruct (nth_repeat_row i c c) as [-> | ->]; [apply nth_repeat_zero|destruct j; auto]. }
    split; [intros; apply Hc|]. split.
    + unfold total_of. assert (Hz : forall n, sum (repeat 0 n) = 0) by (induction n; simpl; auto). generalize c at 2. induction c0 as [|k IHk]; simpl; auto. unfold sum at 1. simpl. fold (sum (repeat 0 c)). rewrite Hz. exact IHk.
    + unfold trace_of. induction (seq 0 (length (repeat (repeat 0 c) c))) as [|i t IH]; simpl; auto. unfold sum in *. simpl. rewrite Hc. simpl. exact IH.
  - destruct IH as (M & E & Sq & Hc & Ht & Htr); [intros; apply Hl; apply in_or_app; auto|].
    destruct (Hl p e) as [Hp He]; [apply in_or_app; right; left; auto|].
    destruct (square_row c M (Z.to_nat e) Sq) as (row & Er & Lr & Nr); [lia|].
    destruct (nth_error_lt_some row (Z.to_nat p)) as [x Ex]; [lia|].
    exists (set_nth (Z.to_nat e) (set_nth (Z.to_nat p) (x + 1) row) M). rewrite foldr_app, E. cbn [bind foldr_ fst snd].
    rewrite <- (Z2Nat.id e) at 1 by lia. rewrite (idxZ_ok _ _ _ Er). cbn [bind]. rewrite <- (Z2Nat.id p) at 1 by lia. rewrite (idxZ_ok _ _ _ Ex). cbn [bind].
    split; [reflexivity|]. destruct Sq as [Lm Rm].
    assert (Sq' : square c (set_nth (Z.to_nat e) (set_nth (Z.to_nat p) (x + 1) row) M)).
    { split; [rewrite set_nth_length; auto|]. intros r Hr. apply In_nth_error in Hr as [k Hk]. apply set_nth_cases in Hk as [[_ ->]|[_ Hk]]; [rewrite set_nth_length; auto|apply Rm; eapply nth_error_In; eauto]. }
    split; [exact Sq'|].
    assert (Hcell : forall e' p', cell (set_nth (Z.to_nat e) (set_nth (Z.to_nat p) (x + 1) row) M) e' p' = cell M e' p' + if Nat.eqb e' (Z.to_nat e) && Nat.eqb p' (Z.to_nat p) then 1 else 0).
    { intros e' p'. unfold cell. rewrite nth_set_nth by lia. destruct (Nat.eqb_spec e' (Z.to_nat e)) as [Ee|Ee]; simpl; [|lia]. subst e'. rewrite Nr. rewrite nth_set_nth by lia.
      destruct (Nat.eqb_spec p' (Z.to_nat p)) as [Epp|Epp]; simpl; [|lia]. subst p'. rewrite (nth_error_nth row _ 0 Ex). lia. }
    split; [|split].
    + intros e' p' He' Hp'. rewrite Hcell, Hc by auto. rewrite count_occ_app, Nat2Z.inj_add. f_equal. cbn [count_occ].
      destruct (pair_dec (p, e) (Z.of_nat p', Z.of_nat e')) as [Heq|Hne].
      * injection Heq as -> ->. rewrite !Nat2Z.id, !Nat.eqb_refl. reflexivity.
      * destruct (Nat.eqb_spec e' (Z.to_nat e)) as [E1|E1]; simpl; [|lia]. destruct (Nat.eqb_spec p' (Z.to_nat p)) as [E2|E2]; simpl; [|lia]. exfalso. apply Hne. f_equal; lia.
    + unfold total_of in *. rewrite map_set_nth, sum_set_nth by (rewrite map_length; lia). change (nth (Z.to_nat e) (map sum M) 0) with (nth (Z.to_nat e) (map sum M) (sum [])). rewrite map_nth, Nr, sum_set_nth by lia. rewrite (nth_error_nth row _ 0 Ex), app_length. simpl. lia.
    + unfold trace_of in *. rewrite set_nth_length, filter_snoc_len. rewrite Nat2Z.inj_add, <- Htr.
      transitivity (sum (map (fun i => cell M i i) (seq 0 (length M))) + if matches (p, e) then 1 else 0); [|destruct (matches (p, e)); lia].
      assert (Hin : (Z.to_nat e < 0 + length M)%nat) by lia. revert Hin. generalize (length M) as n. intros n. assert (H0 : (0 <= Z.to_nat e)%nat) by lia. revert H0. generalize 0%nat as k.
      assert (Hnone : forall n k, (Z.to_nat e < k)%nat -> sum (map (fun i => cell (set_nth (Z.to_nat e) (set_nth (Z.to_nat p) (x + 1) row) M) i i) (seq k n)) = sum (map (fun i => cell M i i) (seq k n))).
      { induction n0 as [|n0 IHn]; intros k Hk; simpl; auto. unfold sum in *. simpl. rewrite IHn by lia. rewrite Hcell. destruct (Nat.eqb_spec k (Z.to_nat e)); [lia|]. simpl. lia. }
      induction n as [|n IHn]; intros k Hk Hin; [lia|]. simpl. unfold sum in *. simpl. rewrite Hcell. destruct (Nat.eqb_spec k (Z.to_nat e)) as [Ek|Ek]; simpl.
      * rewrite Hnone by lia. unfold matches. simpl. destruct (Nat.eqb_spec k (Z.to_nat p)), (Z.eqb_spec p e); lia.
      * rewrite IHn by lia. lia.
Qed.
End L.
