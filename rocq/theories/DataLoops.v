(** Proofs about the functions that copy rows into buckets. *)
From Verif Require Import Base Res GoMap Data DataSpec DataLemmas.

Lemma foldr_pre {A T} (f : T -> A -> res T) (I : list A -> T) X :
  (forall pre x post, X = pre ++ x :: post -> f (I pre) x = Ok (I (pre ++ [x]))) -> foldr_ f X (I []) = Ok (I X).
Proof.
  intros H. assert (G : forall post pre, X = pre ++ post -> foldr_ f post (I pre) = Ok (I X)).
  { induction post as [|x post IH]; intros pre E; simpl.
    - rewrite app_nil_r in E. subst. auto.
    - rewrite (H pre x post E). simpl. apply IH. rewrite <- app_assoc. auto. }
  apply (G X []). auto.
Qed.
Lemma foldi_pre {A T} (f : nat -> T -> A -> res T) (I : list A -> T) X :
  (forall pre x post, X = pre ++ x :: post -> f (length pre) (I pre) x = Ok (I (pre ++ [x]))) -> foldi f X (I []) = Ok (I X).
Proof.
  intros H. unfold foldi. assert (G : forall post pre, X = pre ++ post -> foldi_from (length pre) f post (I pre) = Ok (I X)).
  { induction post as [|x post IH]; intros pre E; simpl.
    - rewrite app_nil_r in E. subst. auto.
    - rewrite (H pre x post E). simpl. specialize (IH (pre ++ [x])). rewrite app_length in IH. apply IH. rewrite <- app_assoc. auto. }
  apply (G X []). auto.
Qed.

Lemma map_const_repeat {A} (x : A) n k : map (fun _ => x) (seq k n) = repeat x n.
Proof. revert k. induction n as [|n IH]; intros k; simpl; auto. f_equal. auto. Qed.
Lemma nth_error_map_seq {A} (f : nat -> A) b N : b < N -> nth_error (map f (seq 0 N)) b = Some (f b).
Proof. intros H. rewrite nth_error_map. rewrite nth_error_nth' with (d := 0) by (rewrite seq_length; auto). rewrite seq_nth by auto. auto. Qed.
Lemma set_nth_map_seq {A} (f g : nat -> A) b x N : b < N -> g b = x -> (forall b', b' <> b -> g b' = f b') ->
  set_nth b x (map f (seq 0 N)) = map g (seq 0 N).
Proof.
  intros H Hx Hg. apply nth_error_ext. intros i. destruct (Nat.lt_ge_cases i N) as [Hi|Hi].
  - rewrite (nth_error_map_seq g) by auto. destruct (Nat.eq_dec i b) as [->|Hne].
    + rewrite nth_error_set_nth_same by (rewrite map_length, seq_length; auto). congruence.
    + rewrite nth_error_set_nth_diff by auto. rewrite nth_error_map_seq by auto. rewrite Hg; auto.
  - rewrite !(proj2 (nth_error_None _ _)); auto; [rewrite map_length, seq_length; auto|rewrite set_nth_length, map_length, seq_length; auto].
Qed.
Lemma idx_ok {A} (l : list A) i x : nth_error l i = Some x -> idx l i = Ok x.
Proof. unfold idx, orPanic. intros ->. auto. Qed.
Lemma idxZ_ok {A} (l : list A) (i : nat) x : nth_error l i = Some x -> idxZ l (Z.of_nat i) = Ok x.
Proof. intros H. unfold idxZ. destruct (Z.ltb_spec (Z.of_nat i) 0); [lia|]. rewrite Nat2Z.id. apply idx_ok. auto. Qed.

Section L.
Variable ord : nat -> gmap -> gmap.
Hypothesis Hord : visits_all ord.
Variable h : heap.
Hypothesis G : good_heap h.
Variable D : list nat.
Hypothesis HD : rows_exist h D.

Definition srcs (ss : list step) : list nat := map (fun s => nth (srow s) D 0) ss.
Definition hs (ss : list step) : heap := hdup ord h (srcs ss).
Definition bks (N : nat) (ss : list step) : list (list nat) := map (fun b => bucket b ss (nxt h)) (seq 0 N).
Definition lbs (N : nat) (ss : list step) : list (list Z) := map (fun b => labsin b ss) (seq 0 N).
Definition rws (N : nat) (ss : list step) : list (list nat) := map (fun b => rowsin b ss) (seq 0 N).
Definition rowok (s : step) : Prop := srow s < length D.
Definition stepok (N : nat) (s : step) : Prop := sbk s < N /\ rowok s.

Lemma srcs_exist ss : Forall rowok ss -> rows_exist h (srcs ss).
Proof. intros H r Hr. unfold srcs in Hr. apply in_map_iff in Hr as (s & <- & Hs). rewrite Forall_forall in H. apply HD. apply nth_In. apply H. auto. Qed.
Lemma srcs_sources ss : Forall rowok ss -> sources D ss (srcs ss).
Proof. unfold sources, srcs. induction 1 as [|s ss H _ IH]; simpl; constructor; auto. apply nth_error_nth'. auto. Qed.

Lemma step_dup ss s r : Forall rowok ss -> nth_error D (srow s) = Some r ->
  dup ord (hs ss) r = (hs (ss ++ [s]), nxt h + length ss).
Proof.
  intros H Hr. unfold hs at 2. unfold srcs. rewrite map_app. cbn [map]. rewrite hdup_snoc. fold (srcs ss) (hs ss).
  rewrite (nth_error_nth _ _ 0 Hr). destruct (hdup_ok ord Hord h (srcs ss) G (srcs_exist ss H)) as (I1 & _ & I3 & _). fold (hs ss) in *.
  destruct (dup_ok ord Hord (hs ss) r I3) as (E & _). rewrite (surjective_pairing (dup ord (hs ss) r)). rewrite E, I1. unfold srcs. rewrite map_length. auto.
Qed.
Lemma bks_snoc N ss s : sbk s < N -> set_nth (sbk s) (bucket (sbk s) ss (nxt h) ++ [nxt h + length ss]) (bks N ss) = bks N (ss ++ [s]).
Proof.
  intros H. unfold bks. apply set_nth_map_seq; auto.
  - rewrite bucket_snoc. unfold inb. rewrite Nat.eqb_refl. auto.
  - intros b' Hb. rewrite bucket_snoc. unfold inb. destruct (Nat.eqb_spec (sbk s) b'); [congruence|]. apply app_nil_r.
Qed.
Lemma lbs_snoc N ss s : sbk s < N -> set_nth (sbk s) (labsin (sbk s) ss ++ [slab s]) (lbs N ss) = lbs N (ss ++ [s]).
Proof.
  intros H. unfold lbs. apply set_nth_map_seq; auto.
  - rewrite labsin_snoc. unfold inb. rewrite Nat.eqb_refl. auto.
  - intros b' Hb. rewrite labsin_snoc. unfold inb. destruct (Nat.eqb_spec (sbk s) b'); [congruence|]. apply app_nil_r.
Qed.
Lemma bks_nth N ss b : b < N -> nth_error (bks N ss) b = Some (bucket b ss (nxt h)).
Proof. apply (nth_error_map_seq (fun b => bucket b ss (nxt h))). Qed.
Lemma lbs_nth N ss b : b < N -> nth_error (lbs N ss) b = Some (labsin b ss).
Proof. apply (nth_error_map_seq (fun b => labsin b ss)). Qed.
Lemma bks_nil N : bks N [] = repeat [] N. Proof. exact (map_const_repeat (@nil nat) N 0). Qed.
Lemma lbs_nil N : lbs N [] = repeat [] N. Proof. exact (map_const_repeat (@nil Z) N 0). Qed.

Lemma stepok_rowok N ss : Forall (stepok N) ss -> Forall rowok ss.
Proof. apply Forall_impl. intros s [_ H]. auto. Qed.

Lemma final_divided N ss : Forall (stepok N) ss -> divided h D (hs ss) (rws N ss) (bks N ss).
Proof.
  intros H. pose proof (stepok_rowok N ss H) as H'. destruct (hdup_ok ord Hord h (srcs ss) G (srcs_exist ss H')) as (_ & I2 & _).
  split; [auto|]. split.
  - apply buckets_new; auto; [apply srcs_exist; auto|unfold srcs; apply map_length|]. intros s Hs. rewrite Forall_forall in H. apply H. auto.
  - unfold rws, bks. generalize (seq 0 N). induction l as [|b l IH]; simpl; constructor; auto. apply bucket_copies; auto. apply srcs_sources. auto.
Qed.
Lemma final_perm N ss : Forall (stepok N) ss -> Permutation (concat (rws N ss)) (map srow ss).
Proof. intros H. apply rowsin_perm. intros s Hs. rewrite Forall_forall in H. apply H. auto. Qed.
Lemma final_labels N L ss : Forall (fun s => nth_error L (srow s) = Some (slab s)) ss -> Forall2 (labels_of L) (rws N ss) (lbs N ss).
Proof.
  intros H. unfold rws, lbs. generalize (seq 0 N). induction l as [|b l IH]; simpl; constructor; auto.
  unfold labels_of, rowsin, labsin. clear IH. induction H as [|s ss H _ IH]; simpl; [constructor|]. destruct (inb b s); simpl; auto.
Qed.

(** A copied dataset. *)
Lemma fold_copies E : rows_exist h E -> copies h E (hdup ord h E) (seq 0 (length E)) (seq (nxt h) (length E)).
Proof.
  intros HE. destruct (hdup_ok ord Hord h E G HE) as (_ & _ & _ & I4). unfold copies.
  assert (Gn : forall n k, k + n = length E -> Forall2 (fun i r' => exists r, nth_error E i = Some r /\ meq (mem h r) (mem (hdup ord h E) r')) (seq k n) (seq (nxt h + k) n)).
  { induction n as [|n IH]; intros k Hk; simpl; constructor.
    - destruct (nth_error E k) as [r|] eqn:Er; [|apply nth_error_None in Er; lia]. exists r. split; auto.
    - replace (S (nxt h + k)) with (nxt h + S k) by lia. apply IH. lia. }
  specialize (Gn (length E) 0 eq_refl). rewrite Nat.add_0_r in Gn. auto.
Qed.
Lemma fold_new E : rows_exist h E -> newly_made h (hdup ord h E) (seq (nxt h) (length E)) /\ unchanged h (hdup ord h E).
Proof.
  intros HE. destruct (hdup_ok ord Hord h E G HE) as (I1 & I2 & _). split; auto. split; [apply seq_NoDup|]. intros r Hr. apply in_seq in Hr. lia.
Qed.

(** Split. *)
Definition splitSteps (L : list Z) : list step := map (fun i => (Z.to_nat (nth i L 0%Z), i, nth i L 0%Z)) (seq 0 (length L)).

Lemma split_ok L c : length L = length D -> (0 <= c)%Z -> (forall l, In l L -> 0 <= l < c)%Z ->
  exists h' M, split ord h D c L = Ok (h', M) /\
    divided h D h' (map (fun j => where_label (Z.eqb (Z.of_nat j)) L) (seq 0 (Z.to_nat c))) M.
Proof.
  intros HL Hc Hl. set (N := Z.to_nat c).
  assert (Hok : forall k, k <= length L -> Forall (stepok N) (map (fun i => (Z.to_nat (nth i L 0%Z), i, nth i L 0%Z)) (seq 0 k))).
  { intros k Hk. apply Forall_forall. intros s Hs. apply in_map_iff in Hs as (i & <- & Hi). apply in_seq in Hi.
    split; unfold rowok; cbn [sbk srow fst snd]; [|lia]. specialize (Hl _ (nth_In L 0%Z (n := i) ltac:(lia))). subst N. lia. }
  exists (hs (splitSteps L)), (bks N (splitSteps L)). split.
  - unfold split. destruct (Z.ltb_spec c 0); [lia|].
    fold N. rewrite <- (bks_nil N).
    set (stp := fun i => (Z.to_nat (nth i L 0%Z), i, nth i L 0%Z) : step).
    change (h, bks N []) with ((fun pre : list Z => (hs (map stp (seq 0 (length pre))), bks N (map stp (seq 0 (length pre))))) []).
    rewrite foldi_pre; [reflexivity|]. intros pre l post E. cbn [fst snd].
    assert (Hn : nth_error L (length pre) = Some l) by (rewrite E, nth_error_app2, Nat.sub_diag by auto; auto).
    assert (Hlt : length pre < length L) by (apply nth_error_Some; congruence).
    destruct (nth_error D (length pre)) as [r|] eqn:Er; [|apply nth_error_None in Er; lia].
    rewrite (idx_ok _ _ _ Er). cbn [bind]. pose proof (Hok (length pre) ltac:(lia)) as Hpre.
    rewrite (step_dup (map stp (seq 0 (length pre))) (stp (length pre)) r) by (try apply stepok_rowok with N; auto).
    assert (El : nth (length pre) L 0%Z = l) by (apply nth_error_nth; auto). pose proof (Hl l (nth_error_In _ _ Hn)) as Hlc.
    assert (Hb : sbk (stp (length pre)) < N) by (cbn; rewrite El; subst N; lia).
    replace l with (Z.of_nat (sbk (stp (length pre)))) at 1 by (cbn; rewrite El, Z2Nat.id; lia).
    rewrite (idxZ_ok _ _ _ (bks_nth N _ _ Hb)). cbn [bind].
    replace (Z.to_nat l) with (sbk (stp (length pre))) by (cbn; rewrite El; auto).
    rewrite bks_snoc by auto. rewrite app_length. cbn [length]. rewrite Nat.add_1_r, seq_S, map_app. reflexivity.
  - pose proof (final_divided N _ (Hok (length L) (le_n _))) as F. fold (splitSteps L) in F.
    replace (map (fun j => where_label (Z.eqb (Z.of_nat j)) L) (seq 0 N)) with (rws N (splitSteps L)); auto.
    unfold rws. apply map_ext. intros j. unfold rowsin, splitSteps, where_label.
    assert (Gs : forall l, (forall i, In i l -> i < length L) ->
      map srow (filter (inb j) (map (fun i => (Z.to_nat (nth i L 0%Z), i, nth i L 0%Z)) l)) = filter (fun i => match nth_error L i with Some x => Z.eqb (Z.of_nat j) x | None => false end) l).
    { induction l as [|i l IH]; intros Hi; simpl; auto. specialize (IH ltac:(intros; apply Hi; right; auto)).
      pose proof (Hi i (or_introl eq_refl)) as Hlt. rewrite (nth_error_nth' L 0%Z Hlt). pose proof (Hl _ (nth_In L 0%Z Hlt)) as Hb.
      destruct (inb j (Z.to_nat (nth i L 0%Z), i, nth i L 0%Z)) eqn:Ei; cbn [map]; rewrite IH; unfold inb, sbk in Ei; cbn [fst snd] in Ei; [apply Nat.eqb_eq in Ei|apply Nat.eqb_neq in Ei];
        destruct (Z.eqb_spec (Z.of_nat j) (nth i L 0%Z)) as [Ez|Ez]; try lia; auto. }
    apply Gs. intros i Hi. apply in_seq in Hi. lia.
Qed.

(** SubtractLabel. *)
Lemma subtractLabel_ok L l : length L = length D ->
  exists h' Sl P T Q, subtractLabel ord h D L l = Ok (h', Sl, P, T, Q) /\
    divided h D h' [where_label (fun x => negb (Z.eqb x l)) L; where_label (fun x => Z.eqb x l) L] [Sl; T] /\
    labels_of L (where_label (fun x => negb (Z.eqb x l)) L) P /\ labels_of L (where_label (fun x => Z.eqb x l) L) Q.
Proof.
  intros HL. set (stp := fun i => ((if Z.eqb (nth i L 0%Z) l then 1 else 0), i, nth i L 0%Z) : step).
  set (SS := fun k => map stp (seq 0 k)).
  assert (Hok : forall k, k <= length L -> Forall (stepok 2) (SS k)).
  { intros k Hk. apply Forall_forall. intros s Hs. apply in_map_iff in Hs as (i & <- & Hi). apply in_seq in Hi.
    split; unfold rowok; cbn [sbk srow fst snd stp]; [|lia]. destruct (Z.eqb _ _); lia. }
  set (f := length L).
  exists (hs (SS f)), (bucket 0 (SS f) (nxt h)), (labsin 0 (SS f)), (bucket 1 (SS f) (nxt h)), (labsin 1 (SS f)).
  assert (Er : forall b, b < 2 -> rowsin b (SS f) = where_label (fun x => if Nat.eqb b 1 then Z.eqb x l else negb (Z.eqb x l)) L).
  { intros b Hb. unfold rowsin, SS, where_label, f.
    assert (Gs : forall is, (forall i, In i is -> i < length L) -> map srow (filter (inb b) (map stp is)) =
      filter (fun i => match nth_error L i with Some x => (if Nat.eqb b 1 then Z.eqb x l else negb (Z.eqb x l)) | None => false end) is).
    { induction is as [|i is IH]; intros Hi; simpl; auto. specialize (IH ltac:(intros; apply Hi; right; auto)).
      pose proof (Hi i (or_introl eq_refl)) as Hlt. rewrite (nth_error_nth' L 0%Z Hlt). assert (Ei : inb b (stp i) = if Nat.eqb b 1 then Z.eqb (nth i L 0%Z) l else negb (Z.eqb (nth i L 0%Z) l)).
      { unfold inb, sbk. cbn [fst snd stp]. destruct b as [|[|b]]; [| |lia]; cbn [Nat.eqb]; destruct (Z.eqb (nth i L 0%Z) l); auto. }
      rewrite Ei. destruct (if Nat.eqb b 1 then _ else _); cbn [map]; rewrite IH; auto. }
    apply Gs. intros i Hi. apply in_seq in Hi. lia. }
  split; [|split].
  - unfold subtractLabel. rewrite HL, Nat.eqb_refl. cbn [negb].
    change (h, @nil nat, @nil Z, @nil nat, @nil Z) with ((fun pre : list Z => (hs (SS (length pre)), bucket 0 (SS (length pre)) (nxt h), labsin 0 (SS (length pre)), bucket 1 (SS (length pre)) (nxt h), labsin 1 (SS (length pre)))) []).
    rewrite foldi_pre; [reflexivity|]. intros pre x post E. cbn [fst snd].
    assert (Hn : nth_error L (length pre) = Some x) by (rewrite E, nth_error_app2, Nat.sub_diag by auto; auto).
    assert (Hlt : length pre < length L) by (apply nth_error_Some; congruence).
    destruct (nth_error D (length pre)) as [r|] eqn:Er'; [|apply nth_error_None in Er'; lia].
    rewrite (idx_ok _ _ _ Er'). cbn [bind]. pose proof (Hok (length pre) ltac:(lia)) as Hpre.
    rewrite (step_dup (SS (length pre)) (stp (length pre)) r) by (try apply stepok_rowok with 2; auto).
    assert (ES : SS (length (pre ++ [x])) = SS (length pre) ++ [stp (length pre)]) by (unfold SS; rewrite app_length; cbn [length]; rewrite Nat.add_1_r, seq_S, map_app; auto).
    rewrite ES, !bucket_snoc, !labsin_snoc. unfold inb, sbk, slab. cbn [fst snd stp]. rewrite (nth_error_nth _ _ 0%Z Hn).
    destruct (Z.eqb_spec x l) as [->|]; cbn [Nat.eqb]; rewrite ?app_nil_r; auto.
  - pose proof (final_divided 2 _ (Hok f (le_n _))) as F. unfold rws, bks in F. cbn [map seq] in F. rewrite !Er in F by lia. exact F.
  - assert (HF : Forall (fun s => nth_error L (srow s) = Some (slab s)) (SS f)).
    { apply Forall_forall. intros s Hs. apply in_map_iff in Hs as (i & <- & Hi). apply in_seq in Hi. cbn [stp srow slab fst snd]. apply nth_error_nth'. unfold f in Hi. lia. }
    pose proof (final_labels 2 L (SS f) HF) as FL. unfold rws, lbs in FL. cbn [map seq] in FL. rewrite !Er in FL by lia.
    inversion FL as [|? ? ? ? H1 F2]; subst. inversion F2 as [|? ? ? ? H2 _]; subst. split; auto.
Qed.

(** Copy and Join. *)
Lemma copy_ok L : (forall l, L = Some l -> length l = length D) ->
  exists h' E, copy ord h D L = Ok (h', E, L) /\ divided h D h' [seq 0 (length D)] [E].
Proof.
  intros HL. exists (hdup ord h D), (seq (nxt h) (length D)). split.
  - unfold copy. rewrite (pushDup_fold ord Hord) by auto. destruct L as [l|]; auto. rewrite (HL l eq_refl), Nat.eqb_refl. auto.
  - destruct (fold_new D HD) as [F1 F2]. split; auto. split; [simpl; rewrite app_nil_r; auto|]. constructor; [|constructor]. apply fold_copies. auto.
Qed.
End L.

Lemma join_ok ord h D E L M : visits_all ord -> good_heap h -> rows_exist h D -> rows_exist h E ->
  (forall l m, L = Some l -> M = Some m -> length l = length D /\ length m = length E) ->
  exists h' F, join ord h D E L M = Ok (h', F, match L, M with Some l, Some m => Some (l ++ m) | _, _ => None end) /\
    divided h (D ++ E) h' [seq 0 (length (D ++ E))] [F].
Proof.
  intros Ho G HD HE HL. assert (HDE : rows_exist h (D ++ E)) by (intros r Hr; apply in_app_or in Hr as [?|?]; auto).
  destruct (copy_ok ord Ho h G (D ++ E) HDE None ltac:(discriminate)) as (h' & F & EF & HF). exists h', F. split; auto.
  unfold copy in EF. rewrite fold_left_app in EF. injection EF as EF. unfold join. rewrite EF.
  destruct L as [l|], M as [m|]; auto. destruct (HL l m eq_refl eq_refl) as [-> ->]. rewrite !Nat.eqb_refl. auto.
Qed.
