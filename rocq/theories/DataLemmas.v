(** Proofs about copying datasets. *)
From Verif Require Import Base Res GoMap Data DataSpec.

(** Maps. *)
Lemma get_del m k x : get (del m k) x = if Z.eqb k x then None else get m x.
Proof.
  induction m as [|[a v] m IH]; simpl; [destruct (Z.eqb k x); auto|].
  destruct (Z.eqb_spec a k) as [->|Hk]; simpl.
  - rewrite IH. destruct (Z.eqb k x); auto.
  - destruct (Z.eqb_spec a x) as [->|Hx]; [|auto]. destruct (Z.eqb_spec k x); [congruence|auto].
Qed.
Lemma get_put m k v x : get (put m k v) x = if Z.eqb k x then Some v else get m x.
Proof. unfold put. cbn [get]. destruct (Z.eqb_spec k x) as [->|Hk]; auto. rewrite get_del. destruct (Z.eqb_spec k x); congruence. Qed.
Lemma del_keys m k x : In x (keys (del m k)) <-> In x (keys m) /\ x <> k.
Proof.
  unfold keys, del. rewrite !in_map_iff. split.
  - intros ([a v] & <- & H). apply filter_In in H as [H1 H2]. simpl in *. apply negb_true_iff, Z.eqb_neq in H2. split; auto. exists (a, v). auto.
  - intros [([a v] & <- & H) Hk]. exists (a, v). split; auto. apply filter_In. split; auto. simpl in *. apply negb_true_iff, Z.eqb_neq. auto.
Qed.
Lemma NoDup_keys_filter f m : NoDup (keys m) -> NoDup (keys (filter f m)).
Proof.
  induction m as [|e m IH]; simpl; auto. intros H. inversion H as [|? ? H1 H2]; subst. destruct (f e); simpl; auto. constructor; auto.
  intros Hi. apply H1. unfold keys in *. apply in_map_iff in Hi as (y & E & Hy). apply filter_In in Hy as [Hy _]. apply in_map_iff. eauto.
Qed.
Lemma NoDup_put m k v : NoDup (keys m) -> NoDup (keys (put m k v)).
Proof. intros H. simpl. constructor; [intros Hi; apply del_keys in Hi as [_ Hi]; auto|apply NoDup_keys_filter; auto]. Qed.
Lemma get_In m k v : NoDup (keys m) -> (get m k = Some v <-> In (k, v) m).
Proof.
  induction m as [|[a w] m IH]; intros H; simpl; [split; [discriminate|tauto]|]. inversion H as [|? ? H1 H2]; subst.
  destruct (Z.eqb_spec a k) as [->|Hk].
  - split; [intros E; injection E as ->; auto|]. intros [E|Hi]; [congruence|]. elim H1. apply (in_map fst _ _ Hi).
  - rewrite IH by auto. split; auto. intros [E|Hi]; [congruence|auto].
Qed.
Lemma get_None m k : get m k = None <-> ~ In k (keys m).
Proof.
  induction m as [|[a w] m IH]; simpl; [tauto|]. destruct (Z.eqb_spec a k) as [->|Hk]; [split; [discriminate|tauto]|]. rewrite IH. tauto.
Qed.
Lemma get_perm m m' : NoDup (keys m) -> Permutation m m' -> meq m m'.
Proof.
  intros H HP k. assert (H' : NoDup (keys m')) by (apply (Permutation_NoDup (Permutation_map fst HP)); auto).
  destruct (get m k) as [v|] eqn:E.
  - symmetry. apply get_In; auto. apply get_In in E; auto. apply (Permutation_in _ HP); auto.
  - symmetry. apply get_None. apply get_None in E. intros Hi. apply E. apply (Permutation_in _ (Permutation_sym (Permutation_map fst HP))). auto.
Qed.

Lemma meq_refl m : meq m m. Proof. intros k. auto. Qed.
Lemma meq_trans a b c : meq a b -> meq b c -> meq a c. Proof. intros H1 H2 k. rewrite H1. auto. Qed.
Lemma meq_sym a b : meq a b -> meq b a. Proof. intros H k. auto. Qed.

(** Writing the entries of a list one after the other. *)
Definition puts (l : gmap) (d : gmap) : gmap := fold_left (fun d e => put d (fst e) (snd e)) l d.
Lemma puts_nodup l : forall d, NoDup (keys d) -> NoDup (keys (puts l d)).
Proof. induction l as [|e l IH]; intros d H; simpl; auto. apply IH. apply NoDup_put. auto. Qed.
Lemma puts_get l : NoDup (keys l) -> forall d x, get (puts l d) x = match get l x with Some v => Some v | None => get d x end.
Proof.
  induction l as [|[k v] l IH]; intros HN d x; [reflexivity|]. inversion HN as [|? ? H1 H2]; subst.
  change (puts ((k, v) :: l) d) with (puts l (put d k v)). cbn [get]. rewrite IH by auto. rewrite get_put.
  destruct (Z.eqb_spec k x) as [->|Hk]; auto. apply get_None in H1. rewrite H1. auto.
Qed.

Section O.
Variable ord : nat -> gmap -> gmap.
Hypothesis Hord : visits_all ord.

Lemma ord_nodup i m : NoDup (keys m) -> NoDup (keys (ord i m)).
Proof. intros H. apply (Permutation_NoDup (l := keys m)); auto. apply Permutation_map, Permutation_sym, Hord. Qed.
Lemma ord_meq i m : NoDup (keys m) -> meq (ord i m) m.
Proof. intros H. apply get_perm; [apply ord_nodup; auto|apply Hord]. Qed.

Lemma copyMap_ok i m : NoDup (keys m) -> meq m (copyMap ord [] m i) /\ NoDup (keys (copyMap ord [] m i)).
Proof.
  intros H. unfold copyMap. fold (puts (ord i m) []). split; [|apply puts_nodup; constructor].
  intros x. rewrite puts_get by (apply ord_nodup; auto). rewrite (ord_meq i m H x). simpl. destruct (get m x); auto.
Qed.

Lemma unchanged_refl h : unchanged h h. Proof. split; auto. Qed.
Lemma unchanged_trans h1 h2 h3 : unchanged h1 h2 -> unchanged h2 h3 -> unchanged h1 h3.
Proof. intros [A1 A2] [B1 B2]. split; [lia|]. intros r Hr. rewrite B2 by lia. auto. Qed.

Lemma alloc_ok h m : good_heap h -> NoDup (keys m) -> let h' := fst (alloc h m) in
  snd (alloc h m) = nxt h /\ unchanged h h' /\ good_heap h' /\ nxt h' = S (nxt h) /\ mem h' (nxt h) = m.
Proof.
  intros G Hm. simpl. split; auto. split; [split; simpl; [lia|]; intros r Hr; apply upd_diff; lia|].
  split; [|split; [auto|apply upd_same]].
  intros r. simpl. unfold upd. destruct (Nat.eqb r (nxt h)); auto.
Qed.

Lemma dup_ok h r : good_heap h -> let h' := fst (dup ord h r) in
  snd (dup ord h r) = nxt h /\ unchanged h h' /\ good_heap h' /\ nxt h' = S (nxt h) /\ meq (mem h r) (mem h' (nxt h)).
Proof.
  intros G. destruct (copyMap_ok (nxt h) (mem h r) (G r)) as [C1 C2].
  unfold dup. destruct (alloc_ok h _ G C2) as (A1 & A2 & A3 & A4 & A5). cbv zeta. rewrite A5. auto.
Qed.

(** The heap after copying the maps [rs] one after the other. *)
Definition hdup (h : heap) (rs : list nat) : heap := fold_left (fun h r => fst (dup ord h r)) rs h.
Lemma hdup_snoc h rs r : hdup h (rs ++ [r]) = fst (dup ord (hdup h rs) r).
Proof. unfold hdup. rewrite fold_left_app. auto. Qed.

Lemma hdup_ok h rs : good_heap h -> rows_exist h rs ->
  nxt (hdup h rs) = nxt h + length rs /\ unchanged h (hdup h rs) /\ good_heap (hdup h rs) /\
  forall j r, nth_error rs j = Some r -> meq (mem h r) (mem (hdup h rs) (nxt h + j)).
Proof.
  intros G. induction rs as [|r rs IH] using rev_ind; intros HR.
  - simpl. split; [lia|]. split; [apply unchanged_refl|]. split; auto. intros [|j]; discriminate.
  - destruct IH as (I1 & I2 & I3 & I4); [intros x Hx; apply HR, in_or_app; auto|]. rewrite hdup_snoc.
    destruct (dup_ok (hdup h rs) r I3) as (D1 & D2 & D3 & D4 & D5). cbv zeta in *. rewrite app_length. cbn [length].
    split; [lia|]. split; [eapply unchanged_trans; eauto|]. split; auto.
    intros j x Hj. destruct (Nat.lt_ge_cases j (length rs)) as [Hlt|Hge].
    + rewrite nth_error_app1 in Hj by auto. destruct D2 as [_ D2]. rewrite D2 by lia. apply I4; auto.
    + rewrite nth_error_app2 in Hj by auto. destruct (j - length rs) as [|d] eqn:Ed; [|destruct d; discriminate]. injection Hj as <-.
      replace (nxt h + j) with (nxt (hdup h rs)) by lia. destruct I2 as [_ I2].
      rewrite <- (I2 r) by (apply HR, in_or_app; right; left; auto). auto.
Qed.

Lemma pushDup_fold h rs : good_heap h -> rows_exist h rs -> fold_left (pushDup ord) rs (h, []) = (hdup h rs, seq (nxt h) (length rs)).
Proof.
  intros G. induction rs as [|r rs IH] using rev_ind; intros HR; auto.
  rewrite fold_left_app, IH by (intros x Hx; apply HR, in_or_app; auto). cbn [fold_left]. unfold pushDup. cbn [fst snd].
  destruct (hdup_ok h rs G ltac:(intros x Hx; apply HR, in_or_app; auto)) as (I1 & _ & I3 & _).
  rewrite hdup_snoc. pose proof (dup_ok (hdup h rs) r I3) as (D1 & _). destruct (dup ord (hdup h rs) r) as [h' r']. simpl in D1. cbn [fst]. subst r'.
  rewrite app_length. cbn [length]. rewrite Nat.add_1_r, seq_S, I1. auto.
Qed.

(** Steps: copy the row with index p (label l) into bucket b. *)
Definition step := (nat * nat * Z)%type.
Definition sbk (s : step) : nat := fst (fst s).
Definition srow (s : step) : nat := snd (fst s).
Definition slab (s : step) : Z := snd s.
Definition inb (b : nat) (s : step) : bool := Nat.eqb (sbk s) b.
(** The references that end up in bucket b. *)
Fixpoint bucket (b : nat) (ss : list step) (k : nat) : list nat :=
  match ss with [] => [] | s :: t => if inb b s then k :: bucket b t (S k) else bucket b t (S k) end.
Definition rowsin (b : nat) (ss : list step) : list nat := map srow (filter (inb b) ss).
Definition labsin (b : nat) (ss : list step) : list Z := map slab (filter (inb b) ss).

Lemma bucket_snoc b ss s : forall k, bucket b (ss ++ [s]) k = bucket b ss k ++ (if inb b s then [k + length ss] else []).
Proof.
  induction ss as [|x ss IH]; intros k; simpl.
  - rewrite Nat.add_0_r. auto.
  - rewrite IH. replace (S k + length ss) with (k + S (length ss)) by lia. destruct (inb b x); auto.
Qed.
Lemma labsin_snoc b ss s : labsin b (ss ++ [s]) = labsin b ss ++ (if inb b s then [slab s] else []).
Proof. unfold labsin. rewrite filter_app, map_app. simpl. destruct (inb b s); auto. Qed.
Lemma bucket_in b ss : forall k r, In r (bucket b ss k) -> k <= r < k + length ss.
Proof.
  induction ss as [|x ss IH]; intros k r; simpl; [tauto|]. destruct (inb b x); [intros [<-|H]; [lia|]|intros H]; apply IH in H; lia.
Qed.
Lemma bucket_length b ss k : length (bucket b ss k) = length (rowsin b ss).
Proof. unfold rowsin. rewrite map_length. revert k. induction ss as [|x ss IH]; intros k; simpl; auto. destruct (inb b x); simpl; auto. Qed.

(** The source maps. *)
Definition sources (D : list nat) (ss : list step) (rs : list nat) : Prop := Forall2 (fun s r => nth_error D (srow s) = Some r) ss rs.

Lemma bucket_copies h D ss rs b : good_heap h -> rows_exist h D -> sources D ss rs ->
  copies h D (hdup h rs) (rowsin b ss) (bucket b ss (nxt h)).
Proof.
  intros G HR HS. assert (HR' : rows_exist h rs).
  { intros r Hr. apply In_nth_error in Hr as [j Hj]. clear -HS Hj HR. revert j Hj. induction HS as [|s r' ss rs H _ IH]; intros [|j] Hj; try discriminate.
    - injection Hj as ->. apply HR. eapply nth_error_In; eauto.
    - eauto. }
  destruct (hdup_ok h rs G HR') as (_ & _ & _ & I4). unfold copies, rowsin.
  assert (Gn : forall ss' rs' k, sources D ss' rs' -> (forall j r, nth_error rs' j = Some r -> meq (mem h r) (mem (hdup h rs) (k + j))) ->
    Forall2 (fun i r' => exists r, nth_error D i = Some r /\ meq (mem h r) (mem (hdup h rs) r')) (map srow (filter (inb b) ss')) (bucket b ss' k)).
  { induction ss' as [|s ss' IH]; intros rs' k Hs Hm; simpl; [constructor|]. inversion Hs as [|? r ? rs'' Hr Hs']; subst.
    assert (Hm' : forall j x, nth_error rs'' j = Some x -> meq (mem h x) (mem (hdup h rs) (S k + j))).
    { intros j x Hj. replace (S k + j) with (k + S j) by lia. apply Hm. auto. }
    destruct (inb b s); [|eauto]. simpl. constructor; [|eauto]. exists r. split; auto. rewrite <- (Nat.add_0_r k). apply Hm. auto. }
  apply (Gn ss rs (nxt h)); auto.
Qed.

Lemma buckets_perm N ss : (forall s, In s ss -> sbk s < N) -> forall k,
  Permutation (concat (map (fun b => bucket b ss k) (seq 0 N))) (seq k (length ss)).
Proof.
  intros H k. apply NoDup_Permutation; [|apply seq_NoDup|].
  - assert (Gd : forall ss k b, NoDup (bucket b ss k)).
    { clear. induction ss as [|s ss IH]; intros k b; simpl; [constructor|]. destruct (inb b s); auto. constructor; auto. intros Hi. apply bucket_in in Hi. lia. }
    assert (Gj : forall ss k a b r, In r (bucket a ss k) -> In r (bucket b ss k) -> a = b).
    { clear. induction ss as [|s ss IH]; intros k a b r; simpl; [tauto|]. unfold inb at 1 2.
      destruct (Nat.eqb_spec (sbk s) a), (Nat.eqb_spec (sbk s) b); simpl; try congruence; intros Ha Hb.
      - destruct Ha as [<-|Ha]; [apply bucket_in in Hb; lia|eauto].
      - destruct Hb as [<-|Hb]; [apply bucket_in in Ha; lia|eauto].
      - eauto. }
    revert Gj. generalize (seq_NoDup N 0). generalize (seq 0 N). intros l Hl Gj. induction l as [|b l IH]; simpl; [constructor|].
    inversion Hl as [|? ? H1 H2]; subst. specialize (IH H2).
    assert (Hd : forall r, In r (bucket b ss k) -> ~ In r (concat (map (fun b => bucket b ss k) l))).
    { intros r Hr Hc. rewrite <- flat_map_concat_map in Hc. apply in_flat_map in Hc as (b' & Hb' & Hr'). rewrite (Gj _ _ _ _ _ Hr Hr') in H1. auto. }
    revert Hd. generalize (Gd ss k b). generalize (bucket b ss k). intros L. induction L as [|x L IHL]; intros HL Hd; simpl; auto.
    inversion HL; subst. constructor; [rewrite in_app_iff; intros [?|?]; [auto|apply (Hd x); simpl; auto]|]. apply IHL; auto. intros; apply Hd; right; auto.
  - intros r. rewrite <- flat_map_concat_map, in_flat_map, in_seq. split.
    + intros (b & _ & Hr). apply bucket_in in Hr. lia.
    + intros Hr. clear -H Hr. revert k H Hr. induction ss as [|s ss IH]; intros k H Hr; simpl in *; [lia|].
      destruct (Nat.eq_dec r k) as [->|Hne].
      * exists (sbk s). split; [apply in_seq; pose proof (H s (or_introl eq_refl)); lia|]. unfold inb. rewrite Nat.eqb_refl. left; auto.
      * destruct (IH (S k) ltac:(auto) ltac:(lia)) as (b & Hb & Hi). exists b. split; auto. destruct (inb b s); [right|]; auto.
Qed.

Lemma rowsin_perm N ss : (forall s, In s ss -> sbk s < N) -> Permutation (concat (map (fun b => rowsin b ss) (seq 0 N))) (map srow ss).
Proof.
  induction ss as [|s ss IH]; intros H; simpl.
  - clear. induction (seq 0 N); simpl; auto.
  - specialize (IH ltac:(intros; apply H; right; auto)). rewrite <- IH. clear IH. pose proof (H s (or_introl eq_refl)) as Hb.
    assert (E : map (fun b => rowsin b (s :: ss)) (seq 0 N) = map (fun b => (if inb b s then [srow s] else []) ++ rowsin b ss) (seq 0 N)).
    { apply map_ext. intros b. unfold rowsin. simpl. destruct (inb b s); auto. }
    rewrite E. clear E. assert (Hin : In (sbk s) (seq 0 N)) by (apply in_seq; lia). pose proof (seq_NoDup N 0) as Hnd. revert Hin Hnd.
    generalize (seq 0 N). induction l as [|b l IHl]; intros Hin Hnd; [destruct Hin|]. inversion Hnd as [|? ? H1 H2]; subst. cbn [map concat].
    destruct (inb b s) eqn:Eb; unfold inb in Eb; [apply Nat.eqb_eq in Eb; subst b|apply Nat.eqb_neq in Eb].
    + simpl. constructor. apply Permutation_app_head.
      assert (E : map (fun b => (if inb b s then [srow s] else []) ++ rowsin b ss) l = map (fun b => rowsin b ss) l); [|rewrite E; auto].
      apply map_ext_in. intros b Hb'. destruct (inb b s) eqn:Eb; auto. unfold inb in Eb. apply Nat.eqb_eq in Eb. subst b. contradiction.
    + destruct Hin as [Hin|Hin]; [congruence|]. simpl. rewrite (IHl Hin H2). rewrite !app_comm_cons || idtac. symmetry. apply Permutation_middle.
Qed.

Lemma buckets_new N ss h rs : good_heap h -> rows_exist h rs -> length rs = length ss -> (forall s, In s ss -> sbk s < N) ->
  newly_made h (hdup h rs) (concat (map (fun b => bucket b ss (nxt h)) (seq 0 N))).
Proof.
  intros G HR HL H. pose proof (buckets_perm N ss H (nxt h)) as HP. split.
  - eapply Permutation_NoDup; [apply Permutation_sym, HP|apply seq_NoDup].
  - intros r Hr. apply (Permutation_in _ HP) in Hr. apply in_seq in Hr. destruct (hdup_ok h rs G HR) as (-> & _). lia.
Qed.
End O.
