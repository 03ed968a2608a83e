(** Proofs about Divide, the row-wise functions, Shuffle and Identical. *)
From Verif Require Import Base Res GoMap Data DataSpec DataLemmas DataLoops.

(** Loops making one new map per element. *)
Section Loop.
Context {X : Type}.
Variable g : heap -> X -> heap.
Variable Q : X -> gmap -> Prop.
Variable h : heap.
Variable ok : X -> Prop.
Hypothesis G : good_heap h.
Hypothesis Hg : forall h' x, ok x -> unchanged h h' -> good_heap h' ->
  unchanged h' (g h' x) /\ good_heap (g h' x) /\ nxt (g h' x) = S (nxt h') /\ Q x (mem (g h' x) (nxt h')).

Definition hg (xs : list X) : heap := fold_left g xs h.
Lemma hg_snoc xs x : hg (xs ++ [x]) = g (hg xs) x.
Proof. unfold hg. rewrite fold_left_app. auto. Qed.
Lemma hg_ok xs : Forall ok xs -> unchanged h (hg xs) /\ good_heap (hg xs) /\ nxt (hg xs) = nxt h + length xs /\
  Forall2 (fun x r' => Q x (mem (hg xs) r')) xs (seq (nxt h) (length xs)).
Proof.
  induction xs as [|x xs IH] using rev_ind; intros HF.
  - simpl. split; [apply unchanged_refl|]. split; auto.
  - apply Forall_app in HF as [HF Hx]. inversion Hx as [|? ? Hx' _]; subst. destruct (IH HF) as (I1 & I2 & I3 & I4). rewrite hg_snoc.
    destruct (Hg (hg xs) x Hx' I1 I2) as (J1 & J2 & J3 & J4).
    rewrite app_length, Nat.add_1_r, seq_S. cbn [length]. split; [eapply unchanged_trans; eauto|]. split; auto. split; [lia|].
    apply Forall2_app.
    + assert (HB : forall r', In r' (seq (nxt h) (length xs)) -> mem (g (hg xs) x) r' = mem (hg xs) r').
      { intros r' Hr. apply in_seq in Hr. apply J1. lia. }
      revert HB I4. generalize (seq (nxt h) (length xs)). generalize (hg xs). intros hx l HB I4. clear -HB I4. induction I4 as [|a b l1 l2 H _ IH]; constructor.
      * rewrite HB by (left; auto). exact H.
      * apply IH. intros; apply HB; right; auto.
    + constructor; [|constructor]. rewrite <- I3. auto.
Qed.
Lemma hg_new xs : Forall ok xs -> newly_made h (hg xs) (seq (nxt h) (length xs)).
Proof. intros H. destruct (hg_ok xs H) as (_ & _ & I3 & _). split; [apply seq_NoDup|]. intros r Hr. apply in_seq in Hr. lia. Qed.
End Loop.

(** Removing a variable, adding a variable. *)
Lemma skip_puts_get u l : NoDup (keys l) -> forall d, NoDup (keys d) ->
  let m := fold_left (fun m e => if Z.eqb (fst e) u then m else put m (fst e) (snd e)) l d in
  NoDup (keys m) /\ forall x, get m x = match (if Z.eqb x u then None else get l x) with Some v => Some v | None => get d x end.
Proof.
  induction l as [|[k v] l IH]; intros HN d Hd; cbv zeta.
  - cbn [fold_left]. split; auto. intros x. simpl. destruct (Z.eqb x u); auto.
  - inversion HN as [|? ? H1 H2]; subst. cbn [fold_left fst snd]. apply get_None in H1.
    destruct (Z.eqb_spec k u) as [->|Hk].
    + destruct (IH H2 d Hd) as [J1 J2]. split; auto. intros x. rewrite J2. cbn [get]. destruct (Z.eqb_spec x u) as [->|Hx]; auto.
      destruct (Z.eqb_spec u x); [congruence|auto].
    + destruct (IH H2 (put d k v) (NoDup_put _ _ _ Hd)) as [J1 J2]. split; auto. intros x. rewrite J2, get_put. cbn [get].
      destruct (Z.eqb_spec x u) as [->|Hx]; [destruct (Z.eqb_spec k u); congruence|].
      destruct (Z.eqb_spec k x) as [->|Hkx]; auto. rewrite H1. auto.
Qed.

Section R.
Variable ord : nat -> gmap -> gmap.
Hypothesis Hord : visits_all ord.

Lemma fold_left_pairs {X} (g : heap -> X -> heap) (f : heap * list nat -> X -> heap * list nat) h xs :
  (forall h' E x, f (h', E) x = (g h' x, E ++ [nxt h'])) -> (forall h' x, nxt (g h' x) = S (nxt h')) ->
  fold_left f xs (h, []) = (hg g h xs, seq (nxt h) (length xs)).
Proof.
  intros Hf Hn. induction xs as [|x xs IH] using rev_ind; auto. rewrite fold_left_app, IH. cbn [fold_left]. rewrite Hf, hg_snoc. f_equal.
  rewrite app_length, Nat.add_1_r, seq_S. cbn [length]. f_equal. f_equal. clear IH Hf. induction xs as [|y xs IH] using rev_ind; simpl; [lia|].
  rewrite hg_snoc, Hn, app_length. cbn [length]. lia.
Qed.

(** The map without u. *)
Definition without (u : Z) (m m' : gmap) : Prop := forall x, get m' x = if Z.eqb x u then None else get m x.

Definition subg (u : Z) (h : heap) (r : nat) : heap :=
  fst (alloc h (fold_left (fun m e => if Z.eqb (fst e) u then m else put m (fst e) (snd e)) (ord (nxt h) (mem h r)) [])).

Lemma subtractVariable_ok h D u : good_heap h -> rows_exist h D ->
  exists h' E, subtractVariable ord h D u = (h', E) /\ unchanged h h' /\ good_heap h' /\ newly_made h h' E /\
    Forall2 (fun r r' => without u (mem h r) (mem h' r')) D E.
Proof.
  intros G HD. assert (Hg : forall h' x, x < nxt h -> unchanged h h' -> good_heap h' ->
    unchanged h' (subg u h' x) /\ good_heap (subg u h' x) /\ nxt (subg u h' x) = S (nxt h') /\ without u (mem h x) (mem (subg u h' x) (nxt h'))).
  { intros h' x Hx [_ Hu] G'. destruct (skip_puts_get u (ord (nxt h') (mem h' x)) (ord_nodup ord Hord _ _ (G' x)) [] (NoDup_nil _)) as [J1 J2]. cbv zeta in *.
    unfold subg. destruct (alloc_ok h' _ G' J1) as (_ & A2 & A3 & A4 & A5). cbv zeta in *. split; auto. split; auto. split; auto.
    rewrite A5. intros k. rewrite J2, (ord_meq ord Hord _ _ (G' x)), Hu by auto. cbn [get]. destruct (Z.eqb k u); auto. destruct (get (mem h x) k); auto. }
  assert (HF : Forall (fun x => x < nxt h) D) by (apply Forall_forall; intros; apply HD; auto).
  destruct (hg_ok (subg u) (fun x m => without u (mem h x) m) h (fun x => x < nxt h) G Hg D HF) as (I1 & I2 & I3 & I4). exists (hg (subg u) h D), (seq (nxt h) (length D)). split.
  - apply (fold_left_pairs (subg u)); auto.
  - split; auto. split; auto. split; auto. apply (hg_new (subg u) (fun x m => without u (mem h x) m) h (fun x => x < nxt h) G Hg D HF).
Qed.

(** The map with the entry (v, l). *)
Definition with_entry (v l : Z) (m m' : gmap) : Prop := forall x, get m' x = if Z.eqb x v then Some l else get m x.

Definition mergeg (v : Z) (h : heap) (x : nat * Z) : heap :=
  let (h', r') := dup ord h (fst x) in store h' r' (put (mem h' r') v (snd x)).

Lemma mergeLabel_ok h D L v : good_heap h -> rows_exist h D -> length D <= length L ->
  exists h' T, mergeLabel ord h D L v = Ok (h', T) /\ unchanged h h' /\ good_heap h' /\ newly_made h h' T /\
    Forall2 (fun x r' => with_entry v (snd x) (mem h (fst x)) (mem h' r')) (combine D L) T.
Proof.
  intros G HD HL. assert (Hg : forall h' x, fst x < nxt h -> unchanged h h' -> good_heap h' ->
    unchanged h' (mergeg v h' x) /\ good_heap (mergeg v h' x) /\ nxt (mergeg v h' x) = S (nxt h') /\ with_entry v (snd x) (mem h (fst x)) (mem (mergeg v h' x) (nxt h'))).
  { intros h' [r l] Hx [_ Hu] G'. cbn [fst snd] in *. unfold mergeg. cbn [fst snd].
    destruct (dup_ok ord Hord h' r G') as (A1 & A2 & A3 & A4 & A5). destruct (dup ord h' r) as [h2 r2]. cbn [fst snd] in *. subst r2.
    split; [|split; [|split]].
    - split; [simpl; lia|]. intros x Hlt. simpl. rewrite upd_diff by lia. apply A2. auto.
    - intros x. simpl. unfold upd. destruct (Nat.eqb x (nxt h')); [apply NoDup_put; auto|auto].
    - auto.
    - cbn [mem store]. rewrite upd_same. intros x. rewrite get_put, <- (A5 x), Hu by auto. rewrite Z.eqb_sym. auto. }
  assert (HF : Forall (fun x : nat * Z => fst x < nxt h) (combine D L)) by (apply Forall_forall; intros [r l] Hx; apply in_combine_l in Hx; apply HD; auto).
  destruct (hg_ok (mergeg v) (fun x m => with_entry v (snd x) (mem h (fst x)) m) h (fun x => fst x < nxt h) G Hg _ HF) as (I1 & I2 & I3 & I4).
  assert (HC : length (combine D L) = length D) by (rewrite combine_length; lia). rewrite HC in *.
  exists (hg (mergeg v) h (combine D L)), (seq (nxt h) (length D)). split.
  - unfold mergeLabel.
    change (h, @nil nat) with ((fun pre : list nat => (hg (mergeg v) h (combine pre (firstn (length pre) L)), seq (nxt h) (length pre))) []).
    rewrite foldi_pre.
    + f_equal. f_equal. f_equal. clear -HL. revert L HL. induction D as [|r D IH]; intros [|l L] HL; simpl in *; auto. f_equal. apply IH. lia.
    + intros pre r post E. cbn [fst snd].
      destruct (nth_error L (length pre)) as [l|] eqn:El; [|apply nth_error_None in El; rewrite E, app_length in HL; simpl in HL; lia].
      assert (EC : combine (pre ++ [r]) (firstn (length (pre ++ [r])) L) = combine pre (firstn (length pre) L) ++ [(r, l)]).
      { clear -El. revert L El. induction pre as [|a pre IH]; intros [|b L] El; simpl in *; try discriminate; [injection El as ->; auto|]. f_equal. apply IH. auto. }
      rewrite EC, hg_snoc. unfold mergeg at 2. cbn [fst snd].
      assert (HN : nxt (hg (mergeg v) h (combine pre (firstn (length pre) L))) = nxt h + length pre).
      { assert (HFp : Forall (fun x : nat * Z => fst x < nxt h) (combine pre (firstn (length pre) L))).
        { apply Forall_forall. intros [a b] Hx. apply in_combine_l in Hx. apply HD. rewrite E. apply in_or_app. auto. }
        destruct (hg_ok (mergeg v) (fun x m => with_entry v (snd x) (mem h (fst x)) m) h (fun x => fst x < nxt h) G Hg _ HFp) as (_ & _ & -> & _). rewrite combine_length, firstn_length_le; [lia|]. apply Nat.lt_le_incl, nth_error_Some. congruence. }
      pose proof (eq_refl (snd (dup ord (hg (mergeg v) h (combine pre (firstn (length pre) L))) r))) as HR. unfold dup at 1 in HR. cbn [alloc snd] in HR.
      destruct (dup ord (hg (mergeg v) h (combine pre (firstn (length pre) L))) r) as [h2 r2]. cbn [snd] in HR. subst r2.
      rewrite (idx_ok _ _ _ El). cbn [bind]. rewrite app_length, Nat.add_1_r, seq_S, HN. cbn [length]. auto.
  - split; auto. split; auto. split; auto. pose proof (hg_new (mergeg v) (fun x m => with_entry v (snd x) (mem h (fst x)) m) h (fun x => fst x < nxt h) G Hg _ HF) as HN. rewrite HC in HN. auto.
Qed.

Lemma good_rows h h' rs : newly_made h h' rs -> rows_exist h' rs.
Proof. intros [_ H] r Hr. apply H in Hr. lia. Qed.
Lemma rows_mono h h' D : unchanged h h' -> rows_exist h D -> rows_exist h' D.
Proof. intros [H _] HD r Hr. apply HD in Hr. lia. Qed.

Lemma merge_subtract_ok h D L v : good_heap h -> rows_exist h D -> length L = length D -> (forall r, In r D -> get (mem h r) v = None) ->
  exists h' T h'' E, mergeLabel ord h D L v = Ok (h', T) /\ subtractVariable ord h' T v = (h'', E) /\
    unchanged h h'' /\ newly_made h h'' E /\ Forall2 (fun r r' => meq (mem h r) (mem h'' r')) D E.
Proof.
  intros G HD HL Hv. destruct (mergeLabel_ok h D L v G HD ltac:(lia)) as (h' & T & E1 & U1 & G1 & N1 & F1).
  destruct (subtractVariable_ok h' T v G1 (good_rows _ _ _ N1)) as (h'' & E & E2 & U2 & G2 & N2 & F2).
  exists h', T, h'', E. split; auto. split; auto. split; [eapply unchanged_trans; eauto|]. split.
  - split; [apply N2|]. intros r Hr. apply N2 in Hr. destruct U1. lia.
  - clear -F1 F2 HL Hv. revert L HL T F1 E F2. induction D as [|r D IH]; intros [|l L] HL T F1 E F2; simpl in *; try discriminate; inversion F1 as [|? t ? T' H1 F1']; subst; inversion F2 as [|? e ? E' H2 F2']; subst; constructor.
    + intros x. rewrite H2, H1. cbn [fst snd]. destruct (Z.eqb_spec x v) as [->|]; auto.
    + apply (IH ltac:(auto) L ltac:(lia) T'); auto.
Qed.

(** ExtractLabels. *)
Definition biggest (l : gmap) (k : Z) : Z := fold_left (fun k e => if (fst e >? k)%Z then fst e else k) l k.
Lemma extract_fold l : forall k d, fold_left (fun (s : Z * gmap) e => (if (fst e >? fst s)%Z then fst e else fst s, put (snd s) (fst e) (snd e))) l (k, d) = (biggest l k, puts l d).
Proof. induction l as [|e l IH]; intros k d; [reflexivity|]. cbn [fold_left fst snd]. rewrite IH. reflexivity. Qed.
Lemma biggest_spec l k v : (k <= v)%Z -> (forall x, In x (keys l) -> x <= v)%Z -> In v (keys l) \/ k = v -> biggest l k = v.
Proof.
  revert k. induction l as [|[a w] l IH]; intros k Hk Hm Hv; cbn [biggest fold_left].
  - destruct Hv as [[]|Hv]. exact Hv.
  - cbn [keys map fst In] in *. apply IH.
    + destruct (Z.gtb_spec a k); [apply Hm; auto|auto].
    + intros x Hx. apply Hm. right. auto.
    + destruct (Z.gtb_spec a k); [|destruct Hv as [[Hv|Hv]|Hv]; auto; right; specialize (Hm a ltac:(auto)); lia].
      destruct Hv as [[Hv|Hv]|Hv]; auto. specialize (Hm a ltac:(auto)). lia.
Qed.

Definition extractg (h : heap) (r : nat) : heap :=
  let es := ord (nxt h) (mem h r) in fst (alloc h (del (puts es []) (biggest es 0))).

Lemma extractLabels_ok h D v : good_heap h -> rows_exist h D -> (0 <= v)%Z ->
  (forall r, In r D -> In v (keys (mem h r)) /\ forall x, In x (keys (mem h r)) -> x <= v)%Z ->
  exists h' M L, extractLabels ord h D = (h', M, L) /\ unchanged h h' /\ newly_made h h' M /\
    Forall2 (fun r r' => without v (mem h r) (mem h' r')) D M /\ Forall2 (fun r l => get (mem h r) v = Some l) D L.
Proof.
  intros G HD H0 HM.
  assert (HB : forall h' r, In r D -> unchanged h h' -> biggest (ord (nxt h') (mem h' r)) 0 = v).
  { intros h' r Hr [_ Hu]. destruct (HM r Hr) as [M1 M2]. rewrite Hu by (apply HD; auto).
    assert (HP : Permutation (keys (ord (nxt h') (mem h r))) (keys (mem h r))) by (apply Permutation_map, Hord).
    apply biggest_spec; auto.
    - intros x Hx. apply M2. apply (Permutation_in _ HP). auto.
    - left. apply (Permutation_in _ (Permutation_sym HP)). auto. }
  assert (Hg : forall h' x, In x D -> unchanged h h' -> good_heap h' ->
    unchanged h' (extractg h' x) /\ good_heap (extractg h' x) /\ nxt (extractg h' x) = S (nxt h') /\ without v (mem h x) (mem (extractg h' x) (nxt h'))).
  { intros h' x Hx Hu G'. unfold extractg. cbv zeta. rewrite (HB h' x Hx Hu). destruct Hu as [_ Hu].
    pose proof (ord_nodup ord Hord (nxt h') _ (G' x)) as HN.
    destruct (alloc_ok h' (del (puts (ord (nxt h') (mem h' x)) []) v) G' (NoDup_keys_filter _ _ (puts_nodup _ [] (NoDup_nil _)))) as (_ & A2 & A3 & A4 & A5). cbv zeta in *.
    split; auto. split; auto. split; auto. rewrite A5. intros k. rewrite get_del, puts_get by auto.
    rewrite (ord_meq ord Hord _ _ (G' x)), Hu by (apply HD; auto). rewrite Z.eqb_sym. destruct (Z.eqb k v); auto. destruct (get (mem h x) k); auto. }
  assert (HF : Forall (fun x => In x D) D) by (apply Forall_forall; auto).
  destruct (hg_ok extractg (fun x m => without v (mem h x) m) h (fun x => In x D) G Hg D HF) as (I1 & I2 & I3 & I4).
  exists (hg extractg h D), (seq (nxt h) (length D)), (map (fun r => get0 (mem h r) v) D). split; [|split; auto; split; [apply (hg_new extractg (fun x m => without v (mem h x) m) h (fun x => In x D) G Hg D HF)|split; auto]].
  - unfold extractLabels. assert (Gn : forall pre, (forall r, In r pre -> In r D) -> fold_left (extractRow ord) pre (h, [], []) = (hg extractg h pre, seq (nxt h) (length pre), map (fun r => get0 (mem h r) v) pre)).
    { induction pre as [|r pre IH] using rev_ind; intros Hp; auto. assert (Hp' : forall r, In r pre -> In r D) by (intros; apply Hp, in_or_app; auto).
      rewrite fold_left_app, IH by auto. cbn [fold_left]. unfold extractRow. rewrite extract_fold.
      assert (HFp : Forall (fun x => In x D) pre) by (apply Forall_forall; auto). destruct (hg_ok extractg (fun x m => without v (mem h x) m) h (fun x => In x D) G Hg pre HFp) as (J1 & _ & J3 & _).
      assert (Hr : In r D) by (apply Hp, in_or_app; right; left; auto).
      rewrite hg_snoc. generalize dependent (hg extractg h pre). intros h1 _ J1 J3. unfold extractg. cbv zeta. rewrite (HB _ r Hr J1). cbn [alloc fst].
      rewrite app_length, Nat.add_1_r, seq_S, map_app, J3. cbn [length map]. destruct J1 as [_ Hu]. rewrite (Hu r (HD r Hr)). auto. }
    apply Gn. auto.
  - clear -HM. induction D as [|r D IH]; simpl; constructor; [|apply IH; intros; apply HM; right; auto].
    destruct (HM r (or_introl eq_refl)) as [M1 _]. unfold get0. destruct (get (mem h r) v) eqn:E; auto. apply get_None in E. contradiction.
Qed.

Lemma with_keys v l m m' x : with_entry v l m m' -> In x (keys m') -> x = v \/ In x (keys m).
Proof.
  intros H Hx. destruct (Z.eq_dec x v) as [->|Hne]; auto. right. destruct (in_dec Z.eq_dec x (keys m)) as [?|Hn]; auto.
  apply get_None in Hn. specialize (H x). destruct (Z.eqb_spec x v); [congruence|]. rewrite Hn in H. apply get_None in H. contradiction.
Qed.

Lemma extract_merge_ok h D L v : good_heap h -> rows_exist h D -> length L = length D -> (0 <= v)%Z ->
  (forall r x, In r D -> In x (keys (mem h r)) -> x < v)%Z ->
  exists h' T h'' M, mergeLabel ord h D L v = Ok (h', T) /\ extractLabels ord h' T = (h'', M, L) /\
    unchanged h h'' /\ newly_made h h'' M /\ Forall2 (fun r r' => meq (mem h r) (mem h'' r')) D M.
Proof.
  intros G HD HL H0 Hv. destruct (mergeLabel_ok h D L v G HD ltac:(lia)) as (h' & T & E1 & U1 & G1 & N1 & F1).
  assert (HT : forall t, In t T -> In v (keys (mem h' t)) /\ forall x, In x (keys (mem h' t)) -> (x <= v)%Z).
  { intros t Ht. assert (Hx : exists x, In x (combine D L) /\ with_entry v (snd x) (mem h (fst x)) (mem h' t)).
    { clear -F1 Ht. induction F1 as [|x t' X T' H _ IH]; [destruct Ht|]. destruct Ht as [->|Ht]; [exists x; split; [left; auto|auto]|].
      destruct (IH Ht) as (y & Hy & Hw). exists y. split; [right; auto|auto]. }
    destruct Hx as ([r l] & Hi & Hw). cbn [fst snd] in Hw. split.
    - destruct (in_dec Z.eq_dec v (keys (mem h' t))) as [?|Hn]; auto. apply get_None in Hn. rewrite (Hw v), Z.eqb_refl in Hn. discriminate.
    - intros x Hx. destruct (with_keys _ _ _ _ _ Hw Hx) as [->|Hk]; [lia|]. specialize (Hv r x (in_combine_l _ _ _ _ Hi) Hk). lia. }
  destruct (extractLabels_ok h' T v G1 (good_rows _ _ _ N1) H0 HT) as (h'' & M & L' & E2 & U2 & N2 & F2 & F3).
  assert (EL : L' = L).
  { clear -F1 F3 HL. revert L HL T F1 L' F3. induction D as [|r D IH]; intros [|l L] HL T F1 L' F3; simpl in *; try discriminate; inversion F1 as [|? t ? T' H1 F1']; subst; inversion F3 as [|? l' ? L'' H3 F3']; subst; auto.
    f_equal; [|apply (IH L ltac:(lia) T'); auto]. rewrite (H1 v), Z.eqb_refl in H3. cbn [snd] in H3. congruence. }
  subst L'. exists h', T, h'', M. split; auto. split; auto. split; [eapply unchanged_trans; eauto|]. split.
  - split; [apply N2|]. intros r Hr. apply N2 in Hr. destruct U1. lia.
  - assert (Hn : forall r, In r D -> get (mem h r) v = None) by (intros r Hr; apply get_None; intros Hk; specialize (Hv r v Hr Hk); lia).
    clear -F1 F2 HL Hn. revert L HL T F1 M F2. induction D as [|r D IH]; intros [|l L] HL T F1 E F2; simpl in *; try discriminate; inversion F1 as [|? t ? T' H1 F1']; subst; inversion F2 as [|? e ? E' H2 F2']; subst; constructor.
    + intros x. rewrite H2, H1. cbn [fst snd]. destruct (Z.eqb_spec x v) as [->|]; auto.
    + apply (IH ltac:(auto) L ltac:(lia) T'); auto.
Qed.
End R.

(** Shuffle. *)
Lemma swap_perm {T} (l l' : list T) i j : swap l i j = Ok l' -> Permutation l' l.
Proof.
  unfold swap, idx, orPanic. destruct (nth_error l i) as [a|] eqn:Ei; [|discriminate]. destruct (nth_error l j) as [b|] eqn:Ej; [|discriminate].
  cbn [bind]. intros E. injection E as <-. apply Permutation_sym, Permutation_nth_error. split; [rewrite !set_nth_length; auto|].
  exists (fun n => if Nat.eqb n j then i else if Nat.eqb n i then j else n). split.
  - intros x y. destruct (Nat.eqb_spec x j), (Nat.eqb_spec y j), (Nat.eqb_spec x i), (Nat.eqb_spec y i); subst; intros; congruence.
  - intros n. destruct (Nat.eqb_spec n j) as [->|Hj].
    + rewrite nth_error_set_nth_same; [auto|]. rewrite set_nth_length. apply nth_error_Some. congruence.
    + rewrite nth_error_set_nth_diff by auto. destruct (Nat.eqb_spec n i) as [->|Hi].
      * rewrite nth_error_set_nth_same; [auto|]. apply nth_error_Some. congruence.
      * rewrite nth_error_set_nth_diff by auto. auto.
Qed.
Lemma map_set_nth {S T} (f : S -> T) i x l : map f (set_nth i x l) = set_nth i (f x) (map f l).
Proof. revert i. induction l as [|a l IH]; intros [|i]; simpl; auto. f_equal. auto. Qed.
Lemma swap_map {S T} (f : S -> T) l l' i j : swap l i j = Ok l' -> swap (map f l) i j = Ok (map f l').
Proof.
  unfold swap, idx, orPanic. rewrite !nth_error_map. destruct (nth_error l i) as [a|]; [|discriminate]. destruct (nth_error l j) as [b|]; [|discriminate].
  cbn [bind option_map]. intros E. injection E as <-. rewrite !map_set_nth. auto.
Qed.

Lemma shuffle_ok D L swaps : (forall l, L = Some l -> length l = length D) -> (forall ij, In ij swaps -> fst ij < length D /\ snd ij < length D) ->
  exists is D' L', shuffle D L swaps = Ok (D', L') /\ Permutation is (seq 0 (length D)) /\
    Forall2 (fun i r => nth_error D i = Some r) is D' /\ match L, L' with Some l, Some l' => labels_of l is l' | None, None => True | _, _ => False end.
Proof.
  intros HL Hsw. set (df := fun i => nth i D 0). set (lf := fun (l : list Z) i => nth i l 0%Z).
  set (go := foldr_ (fun (st : list nat * option (list Z)) ij =>
              bind (swap (fst st) (fst ij) (snd ij)) (fun D' =>
              match snd st with
              | Some l => bind (swap l (fst ij) (snd ij)) (fun l' => Ok (D', Some l'))
              | None => Ok (D', None)
              end))).
  assert (Gn : forall sw is, (forall ij, In ij sw -> fst ij < length D /\ snd ij < length D) -> Permutation is (seq 0 (length D)) ->
    exists is', Permutation is' (seq 0 (length D)) /\ go sw (map df is, option_map (fun l => map (lf l) is) L) = Ok (map df is', option_map (fun l => map (lf l) is') L)).
  { induction sw as [|[i j] sw IH]; intros is Hs HP.
    - exists is. split; auto.
    - destruct (Hs _ (or_introl eq_refl)) as [Hi Hj]. cbn [fst snd] in *. assert (Hlen : length is = length D) by (rewrite (Permutation_length HP); apply seq_length).
      assert (Hsw' : exists is1, swap is i j = Ok is1).
      { unfold swap, idx, orPanic. destruct (nth_error is i) eqn:Ei; [|apply nth_error_None in Ei; lia]. destruct (nth_error is j) eqn:Ej; [|apply nth_error_None in Ej; lia]. cbn [bind]. eauto. }
      destruct Hsw' as [is1 E1]. destruct (IH is1 ltac:(intros; apply Hs; right; auto)) as (is' & P' & E').
      { etransitivity; [apply (swap_perm _ _ _ _ E1)|auto]. }
      exists is'. split; auto. unfold go. cbn [foldr_ fst snd]. rewrite (swap_map df _ _ _ _ E1). cbn [bind].
      destruct L as [l|]; cbn [option_map] in *; [rewrite (swap_map (lf l) _ _ _ _ E1); cbn [bind]|]; exact E'. }
  assert (Hid : forall {T} (l : list T) d, map (fun i => nth i l d) (seq 0 (length l)) = l).
  { intros T l d. apply nth_error_ext. intros i. rewrite nth_error_map. destruct (Nat.lt_ge_cases i (length l)) as [H|H].
    - rewrite (nth_error_nth' _ 0) by (rewrite seq_length; auto). rewrite seq_nth by auto. simpl. rewrite (nth_error_nth' _ d) by auto. auto.
    - rewrite (proj2 (nth_error_None l i)) by auto. rewrite (proj2 (nth_error_None (seq 0 (length l)) i)) by (rewrite seq_length; auto). auto. }
  destruct (Gn swaps (seq 0 (length D)) Hsw (Permutation_refl _)) as (is & HP & E).
  assert (Hlt : forall i, In i is -> i < length D) by (intros i Hi; apply (Permutation_in _ HP), in_seq in Hi; lia).
  exists is, (map df is), (option_map (fun l => map (lf l) is) L). split; [|split; [auto|split]].
  - unfold shuffle. fold go. unfold df, lf in E. rewrite Hid in E. destruct L as [l|]; cbn [option_map] in *.
    + rewrite <- (HL l eq_refl), Nat.eqb_refl. cbn [negb]. rewrite <- (HL l eq_refl) in E at 1. rewrite Hid in E. exact E.
    + exact E.
  - clear -Hlt. induction is as [|i is IH]; simpl; constructor; [apply nth_error_nth'; apply Hlt; left; auto|apply IH; intros; apply Hlt; right; auto].
  - destruct L as [l|]; cbn [option_map]; auto. specialize (HL l eq_refl). unfold labels_of. clear -Hlt HL.
    induction is as [|i is IH]; simpl; constructor; [apply nth_error_nth'; rewrite HL; apply Hlt; left; auto|apply IH; intros; apply Hlt; right; auto].
Qed.
