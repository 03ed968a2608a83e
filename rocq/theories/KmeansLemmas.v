(** OldKMeansF: what it returns. *)
From Coq Require Import Permutation.
From Verif Require Import Base Res Arith GoMap Tables Cluster ClusterLemmas ClusterMedoids Dbscan Kmeans KmeansSpec.
Local Open Scope Z_scope.

Lemma idx_ok {T} (l : list T) i x : idx l i = Ok x -> nth_error l i = Some x.
Proof. unfold idx. destruct (nth_error l i); congruence. Qed.
Lemma ok_idx {T} (l : list T) i x : nth_error l i = Some x -> idx l i = Ok x.
Proof. unfold idx. intros ->. auto. Qed.
Lemma idxZ_ok {T} (l : list T) i x : idxZ l i = Ok x -> 0 <= i /\ nth_error l (Z.to_nat i) = Some x.
Proof. unfold idxZ. destruct (Z.ltb_spec i 0); [discriminate|]. intros H1. split; auto. apply idx_ok; auto. Qed.
Lemma nth_lt {T} (l : list T) i x : nth_error l i = Some x -> (i < length l)%nat.
Proof. intros E. apply nth_error_Some. congruence. Qed.
Lemma nth_map_seq {T} (f : nat -> T) k p : (p < k)%nat -> nth_error (map f (seq 0 k)) p = Some (f p).
Proof. intros H. rewrite nth_error_map. rewrite (nth_error_nth' _ 0%nat) by (rewrite seq_length; auto). rewrite seq_nth by auto. reflexivity. Qed.
Lemma nth_map_seq_inv {T} (f : nat -> T) k p x : nth_error (map f (seq 0 k)) p = Some x -> (p < k)%nat /\ x = f p.
Proof. intros E. pose proof (nth_lt _ _ _ E) as L. rewrite map_length, seq_length in L. rewrite nth_map_seq in E by auto. split; congruence. Qed.
Lemma list_ext {T} (l l' : list T) : (forall i, nth_error l i = nth_error l' i) -> l = l'.
Proof.
  revert l'. induction l as [|x l IH]; intros [|y l'] H; auto; try (specialize (H 0%nat); discriminate).
  pose proof (H 0%nat) as H0. injection H0 as ->. f_equal. apply IH. intros i. apply (H (S i)).
Qed.
Lemma set_nth_seq {T} (f g : nat -> T) k p : (p < k)%nat -> (forall q, q <> p -> g q = f q) -> set_nth p (g p) (map f (seq 0 k)) = map g (seq 0 k).
Proof.
  intros Hp H. apply list_ext. intros i. destruct (Nat.eq_dec i p) as [->|N].
  - rewrite nth_error_set_nth_same by (rewrite map_length, seq_length; auto). rewrite nth_map_seq by auto. auto.
  - rewrite nth_error_set_nth_diff by auto. destruct (Nat.lt_ge_cases i k).
    + rewrite !nth_map_seq by auto. rewrite H; auto.
    + rewrite !(proj2 (nth_error_None _ _)) by (rewrite map_length, seq_length; auto). auto.
Qed.
Lemma combine_snoc {T U} (l : list T) : forall (l2 : list U) c x, nth_error l (length l2) = Some c -> combine l (l2 ++ [x]) = combine l l2 ++ [(c, x)].
Proof.
  induction l as [|a l IH]; intros [|b l2] c x E; try discriminate; cbn [nth_error length] in *.
  - injection E as ->. simpl. destruct l; auto.
  - cbn [app combine]. f_equal. apply IH. auto.
Qed.
Lemma numbered_snoc {T} (a : list T) x : numbered (a ++ [x]) = numbered a ++ [(Z.of_nat (length a), x)].
Proof.
  unfold numbered. rewrite app_length. cbn [length]. rewrite seq_app, map_app. cbn [seq map Nat.add].
  assert (L : length (map Z.of_nat (seq 0 (length a))) = length a) by (rewrite map_length, seq_length; auto).
  revert L. generalize (map Z.of_nat (seq 0 (length a))). intros l. generalize (Z.of_nat (length a)). intros z. revert l.
  induction a as [|y a IH]; intros [|u l] L; try discriminate; auto. cbn [combine app]. f_equal. apply IH. simpl in L. lia.
Qed.
Lemma numbered_length {T} (a : list T) : length (numbered a) = length a.
Proof. unfold numbered. rewrite combine_length, map_length, seq_length. lia. Qed.
Lemma numbered_nth {T} (a : list T) i x : nth_error a i = Some x -> nth_error (numbered a) i = Some (Z.of_nat i, x).
Proof.
  induction a as [|y a IH] using rev_ind; intros E; [destruct i; discriminate|]. rewrite numbered_snoc.
  destruct (Nat.lt_ge_cases i (length a)).
  - rewrite nth_error_app1 in * by (rewrite ?numbered_length; auto). auto.
  - pose proof (nth_lt _ _ _ E) as L. rewrite app_length in L. cbn [length] in L. assert (i = length a) by lia. subst i.
    rewrite nth_error_app2, Nat.sub_diag in E by lia. rewrite nth_error_app2, numbered_length, Nat.sub_diag by (rewrite numbered_length; lia). cbn in *. congruence.
Qed.
Lemma numbered_in {T} (a : list T) z x : In (z, x) (numbered a) -> exists i, z = Z.of_nat i /\ nth_error a i = Some x.
Proof.
  intros H. apply In_nth_error in H as (i & E). pose proof (nth_lt _ _ _ E) as L. rewrite numbered_length in L.
  destruct (nth_error a i) as [y|] eqn:Ea; [|apply nth_error_None in Ea; lia]. rewrite (numbered_nth _ _ _ Ea) in E. injection E as <- <-. eauto.
Qed.

(** The members of cluster [p]. *)
Definition members {T} (C : list Z) (p : nat) (a : list T) : list (Z * T) :=
  map snd (filter (fun ce => fst ce =? Z.of_nat p) (combine C (numbered a))).
Lemma members_snoc {T} C p (a : list T) x c : nth_error C (length a) = Some c ->
  members C p (a ++ [x]) = members C p a ++ (if c =? Z.of_nat p then [(Z.of_nat (length a), x)] else []).
Proof.
  intros E. unfold members. rewrite numbered_snoc, (combine_snoc C _ c) by (rewrite numbered_length; auto). rewrite filter_app, map_app. cbn [filter fst].
  destruct (c =? Z.of_nat p); auto.
Qed.
Lemma members_in {T} C p (a : list T) z x : length C = length a -> In (z, x) (members C p a) -> exists i, z = Z.of_nat i /\ nth_error a i = Some x /\ nth_error C i = Some (Z.of_nat p).
Proof.
  intros L. induction a as [|y a IH] using rev_ind in C, L |- *; [destruct C; [intros []|discriminate]|].
  rewrite app_length in L. cbn [length] in L. destruct (nth_error C (length a)) as [c|] eqn:Ec; [|apply nth_error_None in Ec; lia].
  rewrite (members_snoc _ _ _ _ c) by auto. intros H. apply in_app_iff in H as [H|H].
  - assert (EC : C = firstn (length a) C ++ [c]).
    { rewrite <- (firstn_skipn (length a) C) at 1. f_equal. apply list_ext. intros [|i]; cbn [nth_error].
      - destruct (skipn (length a) C) as [|u s] eqn:Es; [rewrite <- (firstn_skipn (length a) C), Es, app_nil_r in Ec; pose proof (nth_lt _ _ _ Ec) as Q; rewrite firstn_length in Q; lia|].
        rewrite <- (firstn_skipn (length a) C), Es in Ec. rewrite nth_error_app2 in Ec by (rewrite firstn_length; lia). rewrite firstn_length, Nat.min_l, Nat.sub_diag in Ec by lia. auto.
      - assert (Ls : length (skipn (length a) C) = 1%nat) by (rewrite skipn_length; lia). destruct (skipn (length a) C) as [|u [|v s]]; try discriminate. destruct i; auto. }
    destruct (IH (firstn (length a) C)) as (i & -> & E1 & E2).
    + rewrite firstn_length. lia.
    + unfold members in *. rewrite EC in H. replace (combine (firstn (length a) C) (numbered a)) with (combine (firstn (length a) C ++ [c]) (numbered a)); auto.
      clear - L. assert (L1 : length (firstn (length a) C) = length (numbered a)) by (rewrite firstn_length, numbered_length; lia).
      revert L1. generalize (numbered a). generalize (firstn (length a) C). induction l as [|u l IH]; intros [|v w] L1; try discriminate; auto. cbn [app combine]. f_equal. apply IH. simpl in L1. lia.
    + exists i. split; auto. pose proof (nth_lt _ _ _ E1). rewrite nth_error_app1 by auto. split; auto. rewrite EC, nth_error_app1; auto. apply (nth_lt _ _ _ E2).
  - destruct (Z.eqb_spec c (Z.of_nat p)); [|destruct H]. destruct H as [H|[]]. injection H as <- <-. exists (length a). split; auto. rewrite nth_error_app2, Nat.sub_diag by lia. subst. auto.
Qed.
Lemma members_total {T} (C : list Z) (k : nat) (a : list T) : (length a <= length C)%nat -> (forall i c, (i < length a)%nat -> nth_error C i = Some c -> 0 <= c < Z.of_nat k) ->
  Permutation (concat (map (fun p => members C p a) (seq 0 k))) (numbered a).
Proof.
  induction a as [|x a IH] using rev_ind; intros HL H.
  - unfold members, numbered. cbn [length seq map combine]. assert (E : forall l : list nat, concat (map (fun p => map snd (filter (fun ce : Z * (Z * T) => fst ce =? Z.of_nat p) (combine C []))) l) = []).
    { intros l. rewrite combine_nil. induction l; auto. } rewrite E. constructor.
  - rewrite app_length in *. cbn [length] in *. destruct (nth_error C (length a)) as [c|] eqn:Ec; [|apply nth_error_None in Ec; lia].
    pose proof (H (length a) c ltac:(lia) Ec) as Hc. rewrite numbered_snoc.
    assert (E : map (fun p => members C p (a ++ [x])) (seq 0 k) =
      set_nth (Z.to_nat c) (members C (Z.to_nat c) a ++ [(Z.of_nat (length a), x)]) (map (fun p => members C p a) (seq 0 k))).
    { set (g := fun p => members C p (a ++ [x])). replace (members C (Z.to_nat c) a ++ [(Z.of_nat (length a), x)]) with (g (Z.to_nat c)).
      - symmetry. apply set_nth_seq; [lia|]. intros q Hq. unfold g. rewrite (members_snoc _ _ _ _ c) by auto. destruct (Z.eqb_spec c (Z.of_nat q)); [lia|rewrite app_nil_r; auto].
      - unfold g. rewrite (members_snoc _ _ _ _ c) by auto. rewrite Z2Nat.id by lia. rewrite Z.eqb_refl. auto. }
    rewrite E. rewrite concat_set_nth with (m := members C (Z.to_nat c) a) by (apply (nth_map_seq (fun p => members C p a)); lia).
    apply Permutation_app_tail. apply IH; [lia|]. intros i c' Hi. apply H. lia.
Qed.

Section Old.
Context {A : arith}.
Local Notation F := (F A).
Variable inf : F.
Variable metric : list F -> list F -> res F.
Variable rnd : nat -> nat -> nat.

Lemma vadd_length (v w : list F) : length v = length w -> length (vadd v w) = length v.
Proof using. intros H. unfold vadd. rewrite map_length, combine_length. lia. Qed.
Lemma vadd_nth (v w : list F) j x y : nth_error v j = Some x -> nth_error w j = Some y -> nth_error (vadd v w) j = Some (fadd x y).
Proof using.
  unfold vadd. revert w j. induction v as [|a v IH]; intros [|b w] [|j] E1 E2; try discriminate; cbn [combine map nth_error fst snd] in *; [congruence|eapply IH; eauto].
Qed.

Lemma addRow_l n (v w : list F) : length v = n -> length w = n -> addRow n v w = Ok (vadd v w).
Proof using.
  intros Lv Lw. unfold addRow.
  assert (G : forall k a v', (a + k = n)%nat -> length v' = n -> (forall j, (j < a)%nat -> nth_error v' j = nth_error (vadd v w) j) -> (forall j, (a <= j)%nat -> nth_error v' j = nth_error v j) ->
    exists v'', foldr_ (fun Mp j => x <- idx Mp j; y <- idx w j; Ok (set_nth j (fadd x y) Mp)) (seq a k) v' = Ok v'' /\ length v'' = n /\ forall j, (j < n)%nat -> nth_error v'' j = nth_error (vadd v w) j).
  { induction k as [|k IH]; intros a v' Ha L' H1 H2; cbn [seq foldr_]; [exists v'; split; auto; split; auto; intros; apply H1; lia|].
    destruct (nth_error v a) as [x|] eqn:Ex; [|apply nth_error_None in Ex; lia]. destruct (nth_error w a) as [y|] eqn:Ey; [|apply nth_error_None in Ey; lia].
    rewrite (ok_idx v' a x) by (rewrite H2; auto). cbn [bind]. rewrite (ok_idx w a y) by auto. cbn [bind]. apply IH.
    - lia.
    - rewrite set_nth_length. auto.
    - intros j Hj. destruct (Nat.eq_dec j a) as [->|]; [rewrite nth_error_set_nth_same by lia; symmetry; apply vadd_nth; auto|rewrite nth_error_set_nth_diff by lia; apply H1; lia].
    - intros j Hj. rewrite nth_error_set_nth_diff by lia. apply H2. lia. }
  destruct (G n 0%nat v) as (v'' & E & L & H); auto; [intros; lia|]. rewrite E. f_equal. apply list_ext. intros j.
  destruct (Nat.lt_ge_cases j n); auto. rewrite !(proj2 (nth_error_None _ _)); auto; rewrite ?vadd_length; lia.
Qed.

Variable n : nat.

Lemma total_length (cl : list (Z * list F)) : (forall e, In e cl -> length (snd e) = n) -> length (total n cl) = n.
Proof using.
  unfold total. assert (L : length (repeat (@fz A 0) n) = n) by apply repeat_length. revert L. generalize (repeat (@fz A 0) n).
  induction cl as [|e cl IH]; intros v Lv H; cbn [fold_left]; auto. apply IH; [rewrite vadd_length; auto; rewrite Lv; symmetry; apply H; left; auto|intros; apply H; right; auto].
Qed.

Section Data.
Variable D : list (list F).
Hypothesis HD : forall row, In row D -> length row = n.
Variable k : nat.

Lemma members_rows C p e : length C = length D -> In e (members C p D) -> length (snd e) = n.
Proof using HD. intros L H. destruct e as [z x]. apply members_in in H as (i & _ & E & _); auto. apply HD. eapply nth_error_In; eauto. Qed.

Lemma members_prefix_rows (C : list Z) p a t e : D = a ++ t -> In e (members C p a) -> length (snd e) = n.
Proof using HD.
  intros Ed H. unfold members in H. apply in_map_iff in H as ((c, e') & <- & H). apply filter_In in H as [H _]. apply in_combine_r in H.
  destruct e' as [z x]. apply numbered_in in H as (i & _ & E). cbn [snd]. apply HD. rewrite Ed. apply in_or_app. left. eapply nth_error_In; eauto.
Qed.

Lemma means2_l C M : means2 n k D C = Ok M ->
  M = map (fun p => centroid n (members C p D)) (seq 0 k) /\ (forall i c, (i < length D)%nat -> nth_error C i = Some c -> 0 <= c < Z.of_nat k) /\ (length D <= length C)%nat.
Proof using HD.
  unfold means2. intros E. apply bind_ok in E as ([Ms Ss] & E1 & E2). cbn [fst snd] in E2.
  assert (G : forall t a s, D = a ++ t -> (length a <= length C)%nat -> (forall i c, (i < length a)%nat -> nth_error C i = Some c -> 0 <= c < Z.of_nat k) ->
    foldi_from (length a) (fun i (st : list (list F) * list Z) row =>
          p <- idx C i; s <- idxZ (snd st) p; Mp <- idxZ (fst st) p; Mp <- addRow n Mp row;
          Ok (set_nth (Z.to_nat p) Mp (fst st), set_nth (Z.to_nat p) (s + 1) (snd st))) t
       (map (fun p => total n (members C p a)) (seq 0 k), map (fun p => Z.of_nat (length (members C p a))) (seq 0 k)) = Ok s ->
    s = (map (fun p => total n (members C p D)) (seq 0 k), map (fun p => Z.of_nat (length (members C p D))) (seq 0 k)) /\
    (forall i c, (i < length D)%nat -> nth_error C i = Some c -> 0 <= c < Z.of_nat k) /\ (length D <= length C)%nat).
  { induction t as [|row t IH]; intros a s Ed La Ha Es; cbn [foldi_from] in Es.
    - rewrite app_nil_r in Ed. subst a. injection Es as <-. auto.
    - apply bind_ok in Es as (s1 & Es1 & Es). apply bind_ok in Es1 as (p & Ep & Es1). apply idx_ok in Ep. cbn [fst snd] in Es1.
      apply bind_ok in Es1 as (q & Eq & Es1). apply idxZ_ok in Eq as [Hp Eq]. apply nth_map_seq_inv in Eq as [Hpk ->].
      apply bind_ok in Es1 as (Mp & Em & Es1). apply idxZ_ok in Em as [_ Em]. apply nth_map_seq_inv in Em as [_ ->].
      assert (Lr : length row = n) by (apply HD; rewrite Ed; apply in_or_app; right; left; auto).
      rewrite addRow_l in Es1; auto; [|apply total_length; intros e He; eapply members_prefix_rows; eauto]. cbn [bind] in Es1. injection Es1 as <-.
      assert (Eg : (length a + 1)%nat = length (a ++ [row])) by (rewrite app_length; auto). rewrite Eg in Es.
      apply (IH (a ++ [row])); [rewrite <- app_assoc; auto| | |].
      + rewrite <- Eg. pose proof (nth_lt _ _ _ Ep). lia.
      + intros i c Hi Ei. rewrite <- Eg in Hi. destruct (Nat.eq_dec i (length a)) as [->|]; [rewrite Ep in Ei; injection Ei as <-; lia|apply (Ha i); auto; lia].
      + rewrite <- Es. f_equal. f_equal.
        * set (g := fun p => total n (members C p (a ++ [row]))). replace (vadd _ _) with (g (Z.to_nat p)).
          -- symmetry. apply set_nth_seq; auto. intros r Hr. unfold g. rewrite (members_snoc _ _ _ _ p) by auto. destruct (Z.eqb_spec p (Z.of_nat r)); [lia|rewrite app_nil_r; auto].
          -- unfold g. rewrite (members_snoc _ _ _ _ p) by auto. rewrite Z2Nat.id, Z.eqb_refl by lia. unfold total. rewrite fold_left_app. reflexivity.
        * set (g := fun p => Z.of_nat (length (members C p (a ++ [row])))). replace (_ + 1) with (g (Z.to_nat p)).
          -- symmetry. apply set_nth_seq; auto. intros r Hr. unfold g. rewrite (members_snoc _ _ _ _ p) by auto. destruct (Z.eqb_spec p (Z.of_nat r)); [lia|rewrite app_nil_r; auto].
          -- unfold g. rewrite (members_snoc _ _ _ _ p) by auto. rewrite Z2Nat.id, Z.eqb_refl by lia. rewrite app_length. simpl. lia. }
  destruct (G D [] (Ms, Ss) eq_refl) as (Es & HC & HL).
  - simpl. lia.
  - simpl. intros; lia.
  - rewrite <- E1. unfold foldi. f_equal. assert (Em : forall p, members C p (@nil (list F)) = []) by (intros p; unfold members, numbered; simpl; rewrite combine_nil; auto).
    f_equal.
    + clear -Em. induction k as [|k' IH]; auto. rewrite seq_S, map_app, IH. cbn [map]. rewrite Em. unfold total. cbn [fold_left]. change [repeat (@fz A 0) n] with (repeat (repeat (@fz A 0) n) 1). rewrite <- repeat_app. f_equal. lia.
    + clear -Em. induction k as [|k' IH]; auto. rewrite seq_S, map_app, IH. cbn [map]. rewrite Em. cbn [length]. change [Z.of_nat 0] with (repeat 0 1). rewrite <- repeat_app. f_equal. lia.
  - split; auto. injection Es as -> ->. clear - E2.
    assert (G : forall l i, (forall j, (j < length l)%nat -> nth_error l j = nth_error (seq 0 k) (i + j)) ->
       mapi_from i (fun i Mi => s <- idx (map (fun p => Z.of_nat (length (members C p D))) (seq 0 k)) i; Ok (if 0 <? s then map (fun x => fdiv x (fz s)) Mi else Mi))
         (map (fun p => total n (members C p D)) l) = Ok (map (fun p => centroid n (members C p D)) l)).
    { induction l as [|p l IH]; intros i Hl; cbn [map mapi_from]; auto. pose proof (Hl 0%nat ltac:(simpl; lia)) as H0. rewrite Nat.add_0_r in H0. cbn [nth_error] in H0.
      unfold idx at 1. rewrite nth_error_map, <- H0. cbn [option_map bind]. rewrite IH; [|intros j Hj; specialize (Hl (S j) ltac:(simpl; lia)); cbn [nth_error] in Hl; rewrite Hl; f_equal; lia].
      cbn [bind]. do 2 f_equal. unfold centroid. destruct (members C p D) as [|e cl]; [reflexivity|]. destruct (Z.ltb_spec 0 (Z.of_nat (length (e :: cl)))); [auto|simpl in *; lia]. }
    unfold mapi in E2. rewrite (G (seq 0 k) 0%nat) in E2 by (intros; auto). congruence.
Qed.

Hypothesis Hgt : strict_order (@fgt A).

Lemma nearestF_same M d c mn j m u : nearestF inf metric M d c = Ok c -> 0 <= c -> (exists mc, nth_error M (Z.to_nat c) = Some mc /\ metric d mc = Ok mn) ->
  nth_error M j = Some m -> metric d m = Ok u -> fgt mn u = false.
Proof using Hgt.
  intros E Hc (mc & Emc & Emn) Em Eu. destruct Hgt as [Hirr Htr]. unfold nearestF in E. destruct (Z.eqb_spec c (-1)); [lia|].
  unfold idxZ in E. destruct (Z.ltb_spec c 0); [lia|]. rewrite (ok_idx _ _ _ Emc) in E. cbn [bind] in E. rewrite Emn in E. cbn [bind] in E.
  apply bind_ok in E as (st & E & Ef). injection Ef as Ef. unfold foldi in E.
  assert (G : forall t a s s', M = a ++ t ->
     (s = (c, mn) /\ (forall i mi ui, (i < length a)%nat -> nth_error M i = Some mi -> metric d mi = Ok ui -> fgt mn ui = false) \/ fgt mn (snd s) = true /\ fst s <> c) ->
     foldi_from (length a) (fun j (st : Z * F) m => u <- metric d m; Ok (if fgt (snd st) u then (Z.of_nat j, u) else st)) t s = Ok s' ->
     (s' = (c, mn) /\ (forall i mi ui, (i < length M)%nat -> nth_error M i = Some mi -> metric d mi = Ok ui -> fgt mn ui = false) \/ fgt mn (snd s') = true /\ fst s' <> c)).
  { induction t as [|m1 t IH]; intros a s s' EM Hs Es; cbn [foldi_from] in Es.
    - rewrite app_nil_r in EM. subst a. injection Es as <-. auto.
    - apply bind_ok in Es as (s1 & Es1 & Es). apply bind_ok in Es1 as (u1 & Eu1 & Es1). injection Es1 as <-.
      assert (E1 : nth_error M (length a) = Some m1) by (rewrite EM, nth_error_app2, Nat.sub_diag by lia; auto).
      replace (length a + 1)%nat with (length (a ++ [m1])) in Es by (rewrite app_length; auto).
      eapply (IH (a ++ [m1])); [rewrite <- app_assoc; auto| |exact Es].
      assert (Hne : Z.of_nat (length a) = c -> u1 = mn). { intros <-. rewrite Nat2Z.id in Emc. rewrite E1 in Emc. congruence. }
      destruct Hs as [[-> Hall]|[Hgt1 Hn]].
      + cbn [fst snd]. destruct (fgt mn u1) eqn:Eg.
        * right. cbn [fst snd]. split; auto. intros Ec. rewrite (Hne Ec), Hirr in Eg. discriminate.
        * left. split; auto. intros i mi ui Hi Ei Eui. rewrite app_length in Hi. cbn [length] in Hi. destruct (Nat.eq_dec i (length a)) as [->|]; [congruence|eapply Hall; eauto; lia].
      + right. destruct (fgt (snd s) u1) eqn:Eg; cbn [fst snd]; auto. split; [eauto|]. intros Ec. rewrite (Hne Ec) in Eg. pose proof (Htr _ _ _ Hgt1 Eg) as Q. rewrite Hirr in Q. discriminate. }
  destruct (G M [] (c, mn) st eq_refl) as [[-> Hal]|[_ N]].
  - left. split; auto. simpl. intros; lia.
  - exact E.
  - eapply Hal; eauto. eapply nth_lt; eauto.
  - congruence.
Qed.

Lemma assign_same M C C' : assign inf metric M D C = Ok (C', false) -> C' = C /\ forall i d, nth_error D i = Some d -> exists c, nth_error C i = Some c /\ nearestF inf metric M d c = Ok c.
Proof using.
  unfold assign, foldi. intros E.
  assert (G : forall t a s s', D = a ++ t ->
    foldi_from (length a) (fun i (st : list Z * bool) d => c <- idx (fst st) i; k <- nearestF inf metric M d c; Ok (if c =? k then st else (set_nth i k (fst st), true))) t s = Ok s' ->
    snd s' = false -> snd s = false /\ s' = s /\ forall i d, (length a <= i)%nat -> nth_error D i = Some d -> exists c, nth_error (fst s) i = Some c /\ nearestF inf metric M d c = Ok c).
  { induction t as [|d t IH]; intros a s s' Ed Es Hf; cbn [foldi_from] in Es.
    - injection Es as <-. split; auto. split; auto. intros i d Hi Ei. rewrite Ed, app_nil_r in Ei. pose proof (nth_lt _ _ _ Ei). lia.
    - apply bind_ok in Es as (s1 & Es1 & Es). apply bind_ok in Es1 as (c & Ec & Es1). apply bind_ok in Es1 as (q & Eq & Es1). injection Es1 as <-.
      replace (length a + 1)%nat with (length (a ++ [d])) in Es by (rewrite app_length; auto).
      destruct (IH (a ++ [d]) _ _ ltac:(rewrite <- app_assoc; auto) Es Hf) as (H1 & H2 & H3).
      destruct (Z.eqb_spec c q) as [<-|]; [|discriminate]. split; auto. split; auto. intros i d' Hi Ei. destruct (Nat.eq_dec i (length a)) as [->|].
      + rewrite Ed, nth_error_app2, Nat.sub_diag in Ei by lia. injection Ei as <-. exists c. split; auto. apply idx_ok; auto.
      + apply H3; auto. rewrite app_length. simpl. lia. }
  destruct (G D [] (C, false) (C', false) eq_refl E eq_refl) as (_ & E2 & H). injection E2 as ->. split; auto. intros i d Ei. apply H; auto. simpl. lia.
Qed.

Lemma assign_length M C C' b : assign inf metric M D C = Ok (C', b) -> length C' = length C.
Proof using.
  clear HD. unfold assign, foldi. generalize 0%nat. generalize false. revert C. induction D as [|d t IH]; intros C b0 i E; cbn [foldi_from] in E; [congruence|].
  apply bind_ok in E as ([C1 b1] & E1 & E). apply bind_ok in E1 as (c & _ & E1). apply bind_ok in E1 as (q & _ & E1). cbn [fst] in E1.
  apply IH in E. destruct (c =? q); injection E1 as <- <-; rewrite ?set_nth_length in E; auto.
Qed.

(** The state in which the loop ends. *)
Lemma lloyd_end : forall fuel C M C', lloyd inf metric fuel n k D C M = Ok C' -> length C' = length C /\
  exists M', assign inf metric M' D C' = Ok (C', false) /\ (M' = M /\ C' = C \/ means2 n k D C' = Ok M') /\ exists M'', means2 n k D C' = Ok M''.
Proof using.
  induction fuel as [|f IH]; intros C M C' E; cbn [lloyd] in E; [discriminate|]. apply bind_ok in E as ([C1 b] & E1 & E). apply bind_ok in E as (M1 & E2 & E). cbn [fst snd] in *.
  destruct b.
  - destruct (IH _ _ _ E) as (L & M' & H1 & H2 & H3). split; [rewrite L; eapply assign_length; eauto|]. exists M'. split; [exact H1|]. split; [|exact H3]. right. destruct H2 as [[-> ->]|H2]; auto.
  - injection E as <-. destruct (assign_same _ _ _ E1) as [-> _]. split; auto. exists M. split; [exact E1|]. split; [left; auto|eauto].
Qed.

Lemma fput_fresh (m : @frows A) i v : (forall e, In e m -> fst e <> i) -> fput m i v = m ++ [(i, v)].
Proof using.
  intros H. unfold fput. f_equal. induction m as [|e m IH]; auto. cbn [filter]. destruct (Z.eqb_spec (fst e) i) as [Ei|]; [destruct (H e); [left; auto|auto]|]. cbn [negb]. f_equal. apply IH. intros e' He'. apply H. right. auto.
Qed.

Lemma copyF_row {T} (x : T) row : length row = n -> copyF (repeat x n) row = row.
Proof using. intros L. unfold copyF. rewrite repeat_length, <- L, firstn_all, skipn_all2 by (rewrite repeat_length; lia). apply app_nil_r. Qed.

Lemma collectF C O :
  foldi (fun i O row => c <- idx C i; m <- idxZ O c; Ok (set_nth (Z.to_nat c) (fput m (Z.of_nat i) (copyF (repeat (fz 0) n) row)) O)) D (repeat [] k) = Ok O ->
  O = map (fun p => members C p D) (seq 0 k).
Proof using HD.
  unfold foldi. intros E.
  assert (G : forall t a O, D = a ++ t ->
    foldi_from (length a) (fun i O row => c <- idx C i; m <- idxZ O c; Ok (set_nth (Z.to_nat c) (fput m (Z.of_nat i) (copyF (repeat (fz 0) n) row)) O)) t (map (fun p => members C p a) (seq 0 k)) = Ok O ->
    O = map (fun p => members C p D) (seq 0 k)).
  { induction t as [|row t IH]; intros a O' Ed Es; cbn [foldi_from] in Es.
    - rewrite app_nil_r in Ed. subst a. congruence.
    - apply bind_ok in Es as (s1 & Es1 & Es). apply bind_ok in Es1 as (c & Ec & Es1). apply idx_ok in Ec. apply bind_ok in Es1 as (m & Em & Es1).
      apply idxZ_ok in Em as [Hc Em]. apply nth_map_seq_inv in Em as [Hck ->]. injection Es1 as <-.
      rewrite copyF_row in Es by (apply HD; rewrite Ed; apply in_or_app; right; left; auto).
      rewrite fput_fresh in Es.
      2:{ intros e He Ef. unfold members in He. apply in_map_iff in He as ((c', e') & <- & He). apply filter_In in He as [He _]. apply in_combine_r in He. destruct e' as [z x]. cbn [snd fst] in *.
          apply numbered_in in He as (i & -> & Ei). pose proof (nth_lt _ _ _ Ei). lia. }
      replace (length a + 1)%nat with (length (a ++ [row])) in Es by (rewrite app_length; auto).
      apply (IH (a ++ [row])); [rewrite <- app_assoc; auto|]. rewrite <- Es. f_equal.
      set (g := fun p => members C p (a ++ [row])). replace (_ ++ [_]) with (g (Z.to_nat c)).
      + symmetry. apply set_nth_seq; auto. intros r Hr. unfold g. rewrite (members_snoc _ _ _ _ c) by auto. destruct (Z.eqb_spec c (Z.of_nat r)); [lia|rewrite app_nil_r; auto].
      + unfold g. rewrite (members_snoc _ _ _ _ c) by auto. rewrite Z2Nat.id, Z.eqb_refl by lia. reflexivity. }
  apply (G D [] O eq_refl). cbn [length]. rewrite <- E. f_equal.
  assert (Em : forall p, members C p (@nil (list F)) = []) by (intros p; unfold members, numbered; simpl; rewrite combine_nil; auto).
  clear -Em. induction k as [|k' IH]; auto. rewrite seq_S, map_app, IH. cbn [map]. rewrite Em. change [@nil (Z * list F)] with (repeat (@nil (Z * list F)) 1). rewrite <- repeat_app. f_equal. lia.
Qed.
End Data.
End Old.
