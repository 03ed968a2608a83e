From Coq Require Import Reals Lra Permutation.
From Verif Require Import Base Res GoMap DataSpec DataLemmas Misc MiscSpec.

(** C63 *)
Lemma sum_shares p q : forall k s, list_sum (map (fun i => if Nat.ltb i p then q + 1 else q) (seq s k)) = k * q + (Nat.min p (s + k) - Nat.min p s).
Proof.
  induction k as [|k IH]; intros s; cbn [seq map list_sum fold_right]; [simpl; lia|].
  change (fold_right Nat.add 0 ?l) with (list_sum l).
  match goal with |- ?x + ?y = _ => change y with (list_sum (map (fun i => if Nat.ltb i p then q + 1 else q) (seq (S s) k))) end.
  rewrite IH. destruct (Nat.ltb_spec s p); lia.
Qed.

Lemma newCounts_l n k : 0 < k -> exists q, newCounts n k = Ok q /\ even_shares n k q /\
  forall i x, nth_error q i = Some x -> forall m, n <= k * m -> x <= m.
Proof.
  intros Hk. unfold newCounts. destruct k as [|k']; [lia|]. set (k := S k') in *.
  eexists. split; [reflexivity|]. clearbody k. pose proof (Nat.div_mod n k ltac:(lia)) as E. pose proof (Nat.mod_upper_bound n k ltac:(lia)) as B.
  split; [split; [rewrite map_length, seq_length; auto|split]|].
  - rewrite sum_shares. simpl (0 + k). rewrite Nat.min_l, Nat.min_0_r, Nat.sub_0_r by lia. lia.
  - intros x y Hx Hy. apply in_map_iff in Hx as (i & <- & _). apply in_map_iff in Hy as (j & <- & _).
    destruct (Nat.ltb i (n mod k)), (Nat.ltb j (n mod k)); lia.
  - intros i x Hx m Hm. apply nth_error_In in Hx. apply in_map_iff in Hx as (j & <- & _).
    destruct (Nat.ltb_spec j (n mod k)); nia.
Qed.

Lemma rowLabel_ok row l : rowLabel row = Ok l -> exists a, row = a ++ [l].
Proof.
  unfold rowLabel. intros H. destruct (rev row) as [|x t] eqn:E; [discriminate|]. injection H as <-.
  exists (rev t). rewrite <- (rev_involutive row), E. auto.
Qed.

Lemma rowLabel_last a l : rowLabel (a ++ [l]) = Ok l.
Proof. unfold rowLabel. rewrite rev_app_distr. reflexivity. Qed.

Lemma get_imap : forall (a : list Z) s k, get (combine (map Z.of_nat (seq s (length a))) a) k =
  if (k <? Z.of_nat s)%Z then None else nth_error a (Z.to_nat k - s).
Proof.
  induction a as [|x a IH]; intros s k; simpl.
  - destruct (k <? Z.of_nat s)%Z; auto. destruct (Z.to_nat k - s); auto.
  - rewrite IH. destruct (Z.eqb_spec (Z.of_nat s) k) as [<-|Hn].
    + destruct (Z.ltb_spec (Z.of_nat s) (Z.of_nat s)); [lia|]. rewrite Nat2Z.id, Nat.sub_diag. auto.
    + destruct (Z.ltb_spec k (Z.of_nat (S s))), (Z.ltb_spec k (Z.of_nat s)); auto; try lia.
      replace (Z.to_nat k - s) with (S (Z.to_nat k - S s)) by lia. auto.
Qed.

Lemma rowMap_ok a l : row_is (a ++ [l]) (rowMap (a ++ [l]), l).
Proof.
  exists a. split; auto. intros k. simpl. unfold rowMap. rewrite removelast_last, app_length. simpl.
  replace (length a + 1 - 1) with (length a) by lia. rewrite get_imap. simpl. rewrite Nat.sub_0_r. auto.
Qed.

Lemma sum_cons x q : list_sum (x :: q) = x + list_sum q.
Proof. reflexivity. Qed.

Lemma sum_set q i x y : nth_error q i = Some (S x) -> list_sum (set_nth i y q) + S x = list_sum q + y.
Proof.
  revert i. induction q as [|z q IH]; intros [|i] H; try discriminate; cbn [nth_error set_nth] in *; rewrite !sum_cons.
  - injection H as ->. lia.
  - specialize (IH i H). lia.
Qed.

Lemma sum_zero q : list_sum q = 0 -> forall i x, nth_error q i = Some x -> x = 0.
Proof.
  induction q as [|y q IH]; intros H [|i] x E; try discriminate; rewrite sum_cons in H; cbn [nth_error] in E.
  - injection E as <-. lia.
  - apply (IH ltac:(lia) i x E).
Qed.

Lemma readLoop_ok : forall rows k C D, list_sum C = k -> readLoop rows k C = Ok (Some D) ->
  length D = k /\ (forall i x, nth_error C i = Some x -> count_occ Z.eq_dec (map snd D) (Z.of_nat i) = x) /\
  (forall l, In l (map snd D) -> (0 <= l < Z.of_nat (length C))%Z) /\
  exists rs, part_of rs rows /\ Forall2 row_is rs D.
Proof.
  induction rows as [|row rows IH]; intros k C D Hk E.
  - destruct k; simpl in E; [|discriminate]. injection E as <-. split; auto. split.
    + intros i x Hi. simpl. symmetry. eapply sum_zero; eauto.
    + split; [intros l []|]. exists []. split; constructor.
  - destruct k as [|k]; cbn [readLoop] in E.
    { injection E as <-. split; auto. split.
      - intros i x Hi. simpl. symmetry. eapply sum_zero; eauto.
      - split; [intros l []|]. exists []. split; [|constructor]. clear. induction (row :: rows); constructor; auto. }
    destruct (rowLabel row) as [l| |] eqn:El; cbn [bind] in E; try discriminate.
    apply rowLabel_ok in El as (a & ->).
    unfold idxZ in E. destruct (Z.ltb_spec l 0); cbn [bind] in E; [discriminate|].
    unfold idx in E. destruct (nth_error C (Z.to_nat l)) as [cl|] eqn:Ec; cbn [bind] in E; [|discriminate].
    assert (Hlt : Z.to_nat l < length C) by (apply nth_error_Some; congruence).
    destruct cl as [|cl].
    + apply IH in E as (H1 & H2 & H3 & rs & H4 & H5); auto. split; auto. split; auto. split; auto.
      exists rs. split; auto. constructor; auto.
    + destruct (readLoop rows k (set_nth (Z.to_nat l) cl C)) as [r| |] eqn:Er; cbn [bind] in E; try discriminate.
      destruct r as [D'|]; [|discriminate]. injection E as <-.
      apply IH in Er as (H1 & H2 & H3 & rs & H4 & H5).
      2:{ pose proof (sum_set C (Z.to_nat l) cl cl Ec). lia. }
      split; [simpl; lia|]. split; [|split].
      * intros i x Hi. cbn [map snd count_occ]. destruct (Z.eq_dec l (Z.of_nat i)) as [->|Hne].
        -- rewrite Nat2Z.id in *. rewrite Ec in Hi. injection Hi as <-. f_equal. apply H2.
           apply nth_error_set_nth_same; auto.
        -- apply H2. rewrite nth_error_set_nth_diff; auto. lia.
      * intros l' [<-|Hl']; [simpl; lia|]. apply H3 in Hl'. rewrite set_nth_length in Hl'. auto.
      * exists ((a ++ [l]) :: rs). split; [apply part_take; auto|]. constructor; auto. apply rowMap_ok.
Qed.

Lemma labelled_cons r rows l : labelled (r :: rows) l = (if Z.eqb (last r 0%Z) l then 1 else 0) + labelled rows l.
Proof. unfold labelled. simpl. destruct (Z.eqb (last r 0%Z) l); auto. Qed.

Lemma readLoop_total : forall rows k C, list_sum C = k ->
  (forall r, In r rows -> r <> [] /\ (0 <= last r 0 < Z.of_nat (length C))%Z) ->
  (forall i x, nth_error C i = Some x -> x <= labelled rows (Z.of_nat i)) ->
  exists D, readLoop rows k C = Ok (Some D).
Proof.
  induction rows as [|row rows IH]; intros k C Hk Hr Hc.
  - assert (k = 0).
    { subst k. assert (X : forall C, (forall i x, nth_error C i = Some x -> x <= 0) -> list_sum C = 0).
      { clear. induction C as [|x C IH]; intros H; auto. simpl. rewrite IH.
        - pose proof (H 0 x eq_refl). lia.
        - intros i y Hi. apply (H (S i)). auto. }
      apply X. intros i x Hi. apply Hc in Hi. auto. }
    subst. rewrite H. simpl. eauto.
  - destruct k as [|k]; cbn [readLoop]; [eauto|].
    destruct (Hr row (or_introl eq_refl)) as (Hne & Hl).
    destruct (exists_last Hne) as (a & l & ->). rewrite last_last in Hl.
    rewrite rowLabel_last. cbn [bind]. unfold idxZ. destruct (Z.ltb_spec l 0); [lia|]. unfold idx.
    destruct (nth_error C (Z.to_nat l)) as [cl|] eqn:Ec; [|apply nth_error_None in Ec; lia]. cbn [bind].
    destruct cl as [|cl].
    + apply IH; auto; [intros r Hin; apply Hr; right; auto|].
      intros i x Hi. pose proof (Hc i x Hi) as H0. rewrite labelled_cons, last_last in H0.
      destruct (Z.eqb_spec l (Z.of_nat i)) as [->|]; auto. rewrite Nat2Z.id in Ec. rewrite Ec in Hi. injection Hi as <-. lia.
    + destruct (IH k (set_nth (Z.to_nat l) cl C)) as (D & ->).
      * pose proof (sum_set C (Z.to_nat l) cl cl Ec). lia.
      * intros r Hin. rewrite set_nth_length. apply Hr. right; auto.
      * intros i x Hi. destruct (Nat.eq_dec i (Z.to_nat l)) as [->|Hd].
        -- rewrite nth_error_set_nth_same in Hi by (apply nth_error_Some; congruence). injection Hi as <-.
           specialize (Hc _ _ Ec). rewrite labelled_cons, last_last, Z2Nat.id in Hc by lia. rewrite Z.eqb_refl in Hc.
           rewrite Z2Nat.id by lia. lia.
        -- rewrite nth_error_set_nth_diff in Hi by auto. specialize (Hc _ _ Hi).
           rewrite labelled_cons, last_last in Hc. destruct (Z.eqb_spec l (Z.of_nat i)); [lia|]. auto.
      * cbn [bind]. eauto.
Qed.

Lemma readBalanced_l rows n c D : readBalanced rows n c = Ok (Some D) ->
  exists q, even_shares n c q /\ length D = n /\
    (forall i x, nth_error q i = Some x -> count_occ Z.eq_dec (map snd D) (Z.of_nat i) = x) /\
    (forall l, In l (map snd D) -> (0 <= l < Z.of_nat c)%Z) /\
    exists rs, part_of rs rows /\ Forall2 row_is rs D.
Proof.
  intros E. unfold readBalanced in E. destruct c as [|c']; [discriminate|].
  destruct (newCounts_l n (S c') ltac:(lia)) as (q & Eq & Hq & _). rewrite Eq in E. cbn [bind] in E.
  exists q. split; auto. destruct Hq as (H1 & H2 & H3).
  apply readLoop_ok in E as (E1 & E2 & E3 & E4); auto. split; auto. split; auto. split; auto. rewrite <- H1. auto.
Qed.

Lemma readBalanced_total_l rows n c : 0 < c ->
  (forall r, In r rows -> r <> [] /\ (0 <= last r 0 < Z.of_nat c)%Z) ->
  (forall l, l < c -> n <= c * labelled rows (Z.of_nat l)) ->
  exists D, readBalanced rows n c = Ok (Some D).
Proof.
  intros Hc Hr Hn. unfold readBalanced. destruct (newCounts_l n c Hc) as (q & -> & (H1 & H2 & H3) & H4). cbn [bind].
  apply readLoop_total; auto; rewrite ?H1; auto. intros i x Hi. apply (H4 i x Hi). apply Hn. rewrite <- H1.
  apply nth_error_Some. congruence.
Qed.

(** C65 *)
Lemma allPairs_length v : forall u, length (allPairs u v) = u * v.
Proof.
  intros u. assert (X : forall s, length (flat_map (fun i => map (fun j => (i, j)) (seq 0 v)) (seq s u)) = u * v); [|apply X].
  induction u as [|u IH]; intros s; simpl; auto. rewrite app_length, map_length, seq_length, IH. auto.
Qed.

Lemma allPairs_nth u v k : k < u * v -> nth_error (allPairs u v) k = Some (k / v, k mod v).
Proof.
  intros Hk. assert (Hv : v <> 0) by (intros ->; lia).
  assert (X : forall u s k, k < u * v -> nth_error (flat_map (fun i => map (fun j => (i, j)) (seq 0 v)) (seq s u)) k = Some (s + k / v, k mod v)).
  { clear u k Hk. induction u as [|u IH]; intros s k Hk; [lia|]. simpl.
    destruct (Nat.lt_ge_cases k v) as [Hl|Hl].
    - rewrite nth_error_app1 by (rewrite map_length, seq_length; auto).
      rewrite nth_error_map, nth_error_nth' with (d := 0) by (rewrite seq_length; auto). rewrite seq_nth by auto. simpl.
      rewrite Nat.div_small, Nat.mod_small by auto. f_equal. f_equal. lia.
    - rewrite nth_error_app2 by (rewrite map_length, seq_length; auto). rewrite map_length, seq_length, IH by lia.
      assert (E : k = (k - v) + 1 * v) by lia. rewrite E at 3 4. rewrite Nat.div_add, Nat.mod_add by auto. f_equal. f_equal. lia. }
  apply (X u 0 k Hk).
Qed.

Lemma randomComb_eq u v : forall m K s pre, s = length pre -> m <= length K -> (forall k, In k K -> k < u * v) ->
  mapi_from s (fun i _ => k <- idx (pre ++ K) i; idx (allPairs u v) k) (repeat tt m) =
  Ok (map (fun k => (k / v, k mod v)) (firstn m K)).
Proof.
  induction m as [|m IH]; intros K s pre Hs Hm HK; [reflexivity|]. destruct K as [|k K]; [simpl in Hm; lia|].
  cbn [repeat mapi_from]. unfold idx at 1. rewrite nth_error_app2 by lia. subst s. rewrite Nat.sub_diag. cbn [nth_error bind].
  unfold idx at 1. rewrite allPairs_nth by (apply HK; left; auto). cbn [bind].
  replace (pre ++ k :: K) with ((pre ++ [k]) ++ K) by (rewrite <- app_assoc; auto).
  rewrite IH; [reflexivity|rewrite app_length; simpl; lia|simpl in Hm; lia|]. intros j Hj. apply HK. right; auto.
Qed.

Lemma NoDup_firstn {T} m : forall (K : list T), NoDup K -> NoDup (firstn m K).
Proof.
  induction m as [|m IH]; intros [|x K] H; simpl; try constructor; inversion H; subst; auto.
  intros Hin. apply H2. clear -Hin. revert m Hin. induction K as [|y K IH]; intros [|m] Hin; simpl in *; try tauto. destruct Hin; eauto.
Qed.

Lemma In_firstn {T} m : forall (K : list T) x, In x (firstn m K) -> In x K.
Proof. induction m as [|m IH]; intros [|y K] x H; simpl in *; try tauto. destruct H; auto. Qed.

Lemma NoDup_map_on {T U} (f : T -> U) (l : list T) : (forall x y, In x l -> In y l -> f x = f y -> x = y) -> NoDup l -> NoDup (map f l).
Proof.
  induction l as [|x l IH]; intros Hf Hn; simpl; constructor; inversion Hn; subst.
  - intros Hin. apply in_map_iff in Hin as (y & E & Hy). apply Hf in E; [|right; auto|left; auto]. subst; auto.
  - apply IH; auto. intros a b Ha Hb. apply Hf; right; auto.
Qed.

Lemma randomComb_l K u v m : Permutation K (seq 0 (u * v)) -> m <= u * v ->
  exists D, randomComb K u v m = Ok D /\ length D = m /\ NoDup D /\ forall i j, In (i, j) D -> i < u /\ j < v.
Proof.
  intros HP Hm. assert (HK : forall k, In k K -> k < u * v).
  { intros k Hk. apply (Permutation_in _ HP) in Hk. apply in_seq in Hk. lia. }
  assert (HL : length K = u * v) by (rewrite (Permutation_length HP), seq_length; auto).
  exists (map (fun k => (k / v, k mod v)) (firstn m K)). split; [apply (randomComb_eq u v m K 0 []); auto; lia|].
  split; [rewrite map_length, firstn_length; lia|]. split.
  - apply NoDup_map_on.
    + intros x y Hx Hy E. injection E as E1 E2. assert (v <> 0) by (intros ->; apply In_firstn, HK in Hx; lia).
      rewrite (Nat.div_mod x v), (Nat.div_mod y v) by auto. congruence.
    + apply NoDup_firstn. eapply Permutation_NoDup; [symmetry; eauto|apply seq_NoDup].
  - intros i j Hin. apply in_map_iff in Hin as (k & E & Hk). injection E as <- <-. apply In_firstn, HK in Hk.
    assert (v <> 0) by (intros ->; lia). split; [apply Nat.div_lt_upper_bound; lia|apply Nat.mod_upper_bound; auto].
Qed.

Lemma randomComb_panics_l K u v m : Permutation K (seq 0 (u * v)) -> u * v < m -> randomComb K u v m = Panic.
Proof.
  intros HP Hm. assert (HL : length K = u * v) by (rewrite (Permutation_length HP), seq_length; auto).
  assert (HK : forall k, In k K -> k < u * v).
  { intros k Hk. apply (Permutation_in _ HP) in Hk. apply in_seq in Hk. lia. }
  unfold randomComb, mapi.
  assert (X : forall m K' s pre, s = length pre -> length K' < m -> K = pre ++ K' ->
    mapi_from s (fun i (_ : unit) => k <- idx K i; idx (allPairs u v) k) (repeat tt m) = Panic).
  { clear m Hm. induction m as [|m IH]; intros K' s pre Hs Hlt E; [lia|]. cbn [repeat mapi_from]. destruct K' as [|k K'].
    - unfold idx at 1. rewrite (proj2 (nth_error_None K s)); auto. rewrite E, app_nil_r. lia.
    - unfold idx at 1. rewrite E at 1. rewrite nth_error_app2 by lia. rewrite Hs, Nat.sub_diag. cbn [nth_error bind].
      unfold idx at 1. rewrite allPairs_nth by (apply HK; rewrite E; apply in_or_app; right; left; auto). cbn [bind].
      rewrite (IH K' (S (length pre)) (pre ++ [k])); auto; [rewrite app_length; simpl; lia|simpl in Hlt; lia|rewrite <- app_assoc; auto]. }
  apply (X m K 0 []); auto. lia.
Qed.

Lemma randomComb_all_l u v D : NoDup D -> (forall i j, In (i, j) D -> i < u /\ j < v) ->
  exists K, Permutation K (seq 0 (u * v)) /\ randomComb K u v (length D) = Ok D.
Proof.
  intros Hn Hr. set (code := fun ij : nat * nat => fst ij * v + snd ij).
  assert (Hc : forall ij, In ij D -> code ij / v = fst ij /\ code ij mod v = snd ij /\ code ij < u * v).
  { intros [i j] Hin. destruct (Hr i j Hin) as [Hi Hj]. unfold code. simpl. assert (v <> 0) by lia.
    rewrite Nat.add_comm, Nat.div_add, Nat.mod_add by auto. rewrite Nat.div_small, Nat.mod_small by auto. repeat split; auto. nia. }
  set (used := map code D). set (K := used ++ filter (fun k => negb (memn k used)) (seq 0 (u * v))).
  assert (HP : Permutation K (seq 0 (u * v))).
  { apply NoDup_Permutation.
    - unfold K.
      assert (NU : NoDup used).
      { apply NoDup_map_on; auto. intros x y Hx Hy E. destruct (Hc x Hx) as (A1 & A2 & _), (Hc y Hy) as (B1 & B2 & _).
        destruct x, y; simpl in *. congruence. }
      clearbody used. assert (X : forall l, NoDup l -> (forall k, In k used -> ~ In k l) -> NoDup (used ++ l)).
      { clear -NU. induction used as [|x us IH]; intros l Hl Hd; simpl; auto. inversion NU; subst. constructor.
        - intros Hin. apply in_app_or in Hin as [Hin|Hin]; auto. eapply Hd; eauto. left; auto.
        - apply IH; auto. intros k Hk. apply Hd. right; auto. }
      apply X; [apply NoDup_filter, seq_NoDup|]. intros k Hk Hin. apply filter_In in Hin as [_ Hin].
      apply memn_In in Hk. rewrite Hk in Hin. discriminate.
    - apply seq_NoDup.
    - intros k. unfold K. rewrite in_app_iff, filter_In, in_seq. split.
      + intros [Hk|[Hk _]]; [|lia]. apply in_map_iff in Hk as (ij & <- & Hin). destruct (Hc ij Hin) as (_ & _ & H). lia.
      + intros Hk. destruct (memn k used) eqn:E; [left; apply memn_In; auto|right; auto]. }
  exists K. split; auto. assert (HK : forall k, In k K -> k < u * v).
  { intros k Hk. apply (Permutation_in _ HP) in Hk. apply in_seq in Hk. lia. }
  assert (HL : length D <= length K) by (unfold K, used; rewrite app_length, map_length; lia).
  pose proof (randomComb_eq u v (length D) K 0 [] eq_refl HL HK) as X. cbn [app] in X. unfold randomComb, mapi. rewrite X.
  f_equal. unfold K, used. rewrite firstn_app, map_length, Nat.sub_diag. simpl. rewrite app_nil_r.
  rewrite firstn_all2 by (rewrite map_length; auto). rewrite map_map. rewrite <- (map_id D) at 2. apply map_ext_in.
  intros [i j] Hin. destruct (Hc _ Hin) as (-> & -> & _). auto.
Qed.

(** C64 *)
Section Halves.
Variable O : gmap.
Variable f : nat -> bool.

Lemma share_fold : forall l P Q k,
  let r := fold_left (fun PQ p => share O (f p) p PQ) l (P, Q) in
  get (fst r) k = (if existsb (fun p => Z.eqb (Z.of_nat p) k && f p) l then Some (get0 O k) else get P k) /\
  get (snd r) k = (if existsb (fun p => Z.eqb (Z.of_nat p) k && negb (f p)) l then Some (get0 O k) else get Q k).
Proof.
  induction l as [|p l IH]; intros P Q k; cbn [fold_left existsb]; [split; auto|].
  unfold share at 2 4. cbn [fst snd].
  destruct (f p); specialize (IH) as IH0.
  - specialize (IH (put P (Z.of_nat p) (get0 O (Z.of_nat p))) Q k). cbv zeta in IH. destruct IH as [-> ->].
    rewrite get_put. destruct (Z.eqb_spec (Z.of_nat p) k) as [->|]; simpl; split; auto.
    destruct (existsb _ l); auto.
  - specialize (IH P (put Q (Z.of_nat p) (get0 O (Z.of_nat p))) k). cbv zeta in IH. destruct IH as [-> ->].
    rewrite get_put. destruct (Z.eqb_spec (Z.of_nat p) k) as [->|]; simpl; split; auto.
    destruct (existsb _ l); auto.
Qed.

Lemma share_all l w h : (forall p, In p l <-> p < w * h) ->
  let r := fold_left (fun PQ p => share O (f p) p PQ) l noMaps in
  (forall p, pixel w h p -> in_one O (fst r) (snd r) p) /\ (forall p, ~ pixel w h p -> in_neither (fst r) (snd r) p) /\
  (forall p, p < w * h -> (get (fst r) (Z.of_nat p) <> None <-> f p = true) /\ (get (snd r) (Z.of_nat p) <> None <-> f p = false)).
Proof.
  intros Hl r.
  assert (E1 : forall g p, p < w * h -> existsb (fun q => Z.eqb (Z.of_nat q) (Z.of_nat p) && g q) l = g p).
  { intros g p Hp. destruct (g p) eqn:Eg.
    - apply existsb_exists. exists p. rewrite Z.eqb_refl, Eg. split; auto. apply Hl; auto.
    - destruct (existsb _ l) eqn:Ee; auto. apply existsb_exists in Ee as (q & _ & Hq). apply andb_prop in Hq as [Hq Hg].
      apply Z.eqb_eq in Hq. assert (q = p) by lia. congruence. }
  assert (E2 : forall g k, ~ pixel w h k -> existsb (fun q => Z.eqb (Z.of_nat q) k && g q) l = false).
  { intros g k Hk. destruct (existsb _ l) eqn:Ee; auto. apply existsb_exists in Ee as (q & Hin & Hq). apply andb_prop in Hq as [Hq Hg].
    apply Z.eqb_eq in Hq. exfalso. apply Hk. apply Hl in Hin. unfold pixel. lia. }
  split; [|split].
  - intros k Hk. pose proof (share_fold l [] [] k) as X. change (let r0 := r in get (fst r0) k = (if existsb (fun p => Z.eqb (Z.of_nat p) k && f p) l then Some (get0 O k) else None) /\ get (snd r0) k = (if existsb (fun p => Z.eqb (Z.of_nat p) k && negb (f p)) l then Some (get0 O k) else None)) in X. cbv zeta in X. clearbody r. destruct X as [Ha Hb].
    assert (Ek : exists p, p < w * h /\ k = Z.of_nat p) by (exists (Z.to_nat k); unfold pixel in Hk; lia).
    destruct Ek as (p & Hp & ->).
    rewrite (E1 f) in Ha by auto. rewrite (E1 (fun q => negb (f q))) in Hb by auto.
    unfold in_one. rewrite Ha, Hb. destruct (f p); simpl; auto.
  - intros k Hk. pose proof (share_fold l [] [] k) as X. change (let r0 := r in get (fst r0) k = (if existsb (fun p => Z.eqb (Z.of_nat p) k && f p) l then Some (get0 O k) else None) /\ get (snd r0) k = (if existsb (fun p => Z.eqb (Z.of_nat p) k && negb (f p)) l then Some (get0 O k) else None)) in X. cbv zeta in X. clearbody r. destruct X as [Ha Hb].
    rewrite (E2 f) in Ha by auto. rewrite (E2 (fun q => negb (f q))) in Hb by auto. split; auto.
  - intros p Hp. pose proof (share_fold l [] [] (Z.of_nat p)) as X. change (let r0 := r in get (fst r0) (Z.of_nat p) = (if existsb (fun q => Z.eqb (Z.of_nat q) (Z.of_nat p) && f q) l then Some (get0 O (Z.of_nat p)) else None) /\ get (snd r0) (Z.of_nat p) = (if existsb (fun q => Z.eqb (Z.of_nat q) (Z.of_nat p) && negb (f q)) l then Some (get0 O (Z.of_nat p)) else None)) in X. cbv zeta in X. clearbody r. destruct X as [Ha Hb].
    rewrite (E1 f) in Ha by auto. rewrite (E1 (fun q => negb (f q))) in Hb by auto. rewrite Ha, Hb.
    destruct (f p); simpl; split; split; congruence.
Qed.
End Halves.

Lemma share_columns O w h : forall xs PQ, (forall x, In x xs -> x < w) ->
  fold_left (fun PQ x => fold_left (fun PQ y => share O (Nat.ltb x (w / 2)) (x + y * w) PQ) (seq 0 h) PQ) xs PQ =
  fold_left (fun PQ p => share O (Nat.ltb (p mod w) (w / 2)) p PQ) (flat_map (fun x => map (fun y => x + y * w) (seq 0 h)) xs) PQ.
Proof.
  induction xs as [|x xs IH]; intros PQ Hx; simpl; auto. rewrite fold_left_app, IH by (intros; apply Hx; right; auto). f_equal.
  assert (Hxw : x < w) by (apply Hx; left; auto). clear -Hxw. revert PQ. induction (seq 0 h) as [|y ys IH]; intros PQ; simpl; auto.
  rewrite Nat.mod_add, Nat.mod_small by lia. apply IH.
Qed.

Lemma columns_all w h p : In p (flat_map (fun x => map (fun y => x + y * w) (seq 0 h)) (seq 0 w)) <-> p < w * h.
Proof.
  rewrite in_flat_map. split.
  - intros (x & Hx & Hp). apply in_map_iff in Hp as (y & <- & Hy). apply in_seq in Hx, Hy. nia.
  - intros Hp. assert (w <> 0) by (intros ->; lia). exists (p mod w). pose proof (Nat.mod_upper_bound p w H).
    split; [apply in_seq; lia|]. apply in_map_iff. exists (p / w). split.
    + pose proof (Nat.div_mod p w H). lia.
    + apply in_seq. pose proof (Nat.div_lt_upper_bound p w h H Hp). lia.
Qed.

Lemma in_one_sym O P Q p : in_one O P Q p -> in_one O Q P p.
Proof. intros [[H1 H2]|[H1 H2]]; [right|left]; auto. Qed.

Lemma splitHalf_l O t w h P Q : splitHalf O t w h = (P, Q) ->
  (forall p, pixel w h p -> in_one O P Q p) /\ (forall p, ~ pixel w h p -> in_neither P Q p) /\
  (forall p, p < w * h -> get P (Z.of_nat p) <> None <->
     match t with Top => p < w * h / 2 | Bottom => w * h / 2 <= p | Left => p mod w < w / 2 | Right => w / 2 <= p mod w end).
Proof.
  intros E. unfold splitHalf in E.
  pose proof (share_all O (fun i => Nat.ltb i (w * h / 2)) (seq 0 (w * h)) w h) as HT.
  pose proof (share_all O (fun p => Nat.ltb (p mod w) (w / 2)) _ w h (columns_all w h)) as HL.
  cbv beta zeta in HL. rewrite <- share_columns in HL by (intros x Hx; apply in_seq in Hx; lia).
  assert (X : forall p, In p (seq 0 (w * h)) <-> p < w * h) by (intros p; rewrite in_seq; lia).
  specialize (HT X). cbv beta zeta in HT.
  destruct t; [destruct HT as (H1 & H2 & H3)|destruct HT as (H1 & H2 & H3)|destruct HL as (H1 & H2 & H3)|destruct HL as (H1 & H2 & H3)];
    match type of E with ?r = _ => match r with (snd ?q, fst ?q) => set (z := q) in * | ?q => set (z := q) in * end end;
    destruct z as [z1 z2]; cbn [fst snd] in *; injection E as <- <-.
  - split; auto. split; auto. intros p Hp. rewrite (proj1 (H3 p Hp)). apply Nat.ltb_lt.
  - split; [intros p Hp; apply in_one_sym; auto|]. split; [intros p Hp; destruct (H2 p Hp); split; auto|].
    intros p Hp. rewrite (proj2 (H3 p Hp)). apply Nat.ltb_ge.
  - split; auto. split; auto. intros p Hp. rewrite (proj1 (H3 p Hp)). apply Nat.ltb_lt.
  - split; [intros p Hp; apply in_one_sym; auto|]. split; [intros p Hp; destruct (H2 p Hp); split; auto|].
    intros p Hp. rewrite (proj2 (H3 p Hp)). apply Nat.ltb_ge.
Qed.

(** Rows stay whole when the height is even. *)
Lemma splitHalf_rows_l O w h P Q : Nat.even h = true -> splitHalf O Top w h = (P, Q) ->
  forall p, p < w * h -> (get P (Z.of_nat p) <> None <-> p / w < h / 2).
Proof.
  intros He E p Hp. rewrite (proj2 (proj2 (splitHalf_l O Top w h P Q E)) p Hp).
  apply Nat.even_spec in He as (k & ->). assert (w <> 0) by (intros ->; lia).
  replace (w * (2 * k)) with (w * k * 2) by lia. rewrite Nat.div_mul by lia. rewrite (Nat.mul_comm 2 k), Nat.div_mul by lia.
  split; intros H0.
  - apply Nat.div_lt_upper_bound; auto.
  - pose proof (Nat.div_mod p w H). pose proof (Nat.mod_upper_bound p w H). nia.
Qed.

Lemma splitHalf_rows_refuted_l : exists O w h P Q p q, splitHalf O Top w h = (P, Q) /\ p < w * h /\ q < w * h /\
  p / w = q / w /\ get P (Z.of_nat p) <> None /\ get P (Z.of_nat q) = None.
Proof.
  exists [], 3, 3. eexists. eexists. exists 3, 4. split; [vm_compute; reflexivity|].
  split; [lia|]. split; [lia|]. split; [reflexivity|]. split; [discriminate|reflexivity].
Qed.

(** halfImg *)
Lemma criteria_ok typ w h p : 0 < w -> pixel w h p -> exists b, criteria typ w h p = Ok b /\ (b = true <-> region typ w h p).
Proof.
  intros Hw Hp. unfold pixel in Hp. unfold criteria, region. rewrite !Z.quot_div_nonneg by lia.
  assert (HT : (p <? Z.of_nat w * (Z.of_nat h / 2) = true <-> p / Z.of_nat w < Z.of_nat h / 2)%Z).
  { rewrite Z.ltb_lt. split; intros H.
    - apply Z.div_lt_upper_bound; lia.
    - pose proof (Z.div_mod p (Z.of_nat w) ltac:(lia)). pose proof (Z.mod_pos_bound p (Z.of_nat w) ltac:(lia)). nia. }
  assert (HL : (Z.rem p (Z.of_nat w) <? Z.of_nat w / 2 = true <-> p mod Z.of_nat w < Z.of_nat w / 2)%Z).
  { rewrite Z.rem_mod_nonneg by lia. apply Z.ltb_lt. }
  destruct (Z.eqb_spec (Z.of_nat w) 0); [lia|].
  destruct typ; eexists; (split; [reflexivity|]); auto; rewrite negb_true_iff, <- not_true_iff_false; tauto.
Qed.

Lemma half_fold typ w h : 0 < w -> forall set acc, (forall k, In k (keys set) -> pixel w h k) -> NoDup (keys set) ->
  exists half, foldr_ (fun half e => b <- criteria typ w h (fst e); Ok (if b then half else put half (fst e) (snd e))) set acc = Ok half /\
    (forall k, region typ w h k -> In k (keys set) -> get half k = get acc k) /\
    (forall k, ~ region typ w h k -> In k (keys set) -> get half k = get set k) /\
    (forall k, ~ In k (keys set) -> get half k = get acc k).
Proof.
  intros Hw. induction set as [|[k v] set IH]; intros acc Hp Hn.
  - exists acc. split; auto. split; [|split]; auto; intros k _ [].
  - cbn [foldr_ fst snd]. cbn [keys map fst] in Hn. inversion Hn as [|? ? Hni Hn']; subst.
    destruct (criteria_ok typ w h k Hw (Hp k (or_introl eq_refl))) as (b & -> & Hb). cbn [bind].
    destruct (IH (if b then acc else put acc k v)) as (half & E & H1 & H2 & H3); auto.
    { intros k' Hk'. apply Hp. right; auto. }
    exists half. split; [exact E|]. split; [|split].
    + intros k' Hr [Ek|Hin].
      * cbn in Ek. subst k'. rewrite H3 by auto. rewrite (proj2 Hb Hr). auto.
      * rewrite H1 by auto. destruct b; auto. rewrite get_put. destruct (Z.eqb_spec k k') as [->|]; auto. contradiction.
    + intros k' Hr [Ek|Hin].
      * cbn in Ek. subst k'. rewrite H3 by auto. simpl. rewrite Z.eqb_refl.
        destruct b; [exfalso; apply Hr, Hb; auto|]. rewrite get_put, Z.eqb_refl. auto.
      * rewrite H2 by auto. simpl. destruct (Z.eqb_spec k k') as [->|]; auto. contradiction.
    + intros k' Hno. rewrite H3; [|intros Hin; apply Hno; right; auto]. destruct b; auto. rewrite get_put.
      destruct (Z.eqb_spec k k') as [->|]; auto. exfalso. apply Hno. left; auto.
Qed.

Lemma dels_get : forall ks c k, get (fold_left (fun c k => del c k) ks c) k = if existsb (Z.eqb k) ks then None else get c k.
Proof.
  induction ks as [|x ks IH]; intros c k; simpl; auto. rewrite IH, get_del, Z.eqb_sym.
  destruct (k =? x)%Z, (existsb (Z.eqb k) ks); auto.
Qed.

Lemma halfImg_l map_ set typ w h : 0 < w -> NoDup (keys set) -> (forall p, get set p <> None <-> pixel w h p) ->
  (forall half, exists M, map_ half = Ok M /\ forall p, get M p <> None <-> pixel w h p) ->
  exists cmpl half, halfImg map_ set typ w h = Ok (cmpl, half) /\
    (forall p, pixel w h p -> region typ w h p -> get cmpl p <> None /\ get half p = None) /\
    (forall p, pixel w h p -> ~ region typ w h p -> get cmpl p = None /\ get half p = get set p) /\
    (forall p, ~ pixel w h p -> get cmpl p = None /\ get half p = None).
Proof.
  intros Hw Hn Hset HM.
  assert (Hk : forall k, In k (keys set) <-> pixel w h k).
  { intros k. rewrite <- Hset, get_None. destruct (in_dec Z.eq_dec k (keys set)); tauto. }
  destruct (half_fold typ w h Hw set []) as (half & E & H1 & H2 & H3); auto; [intros k; apply Hk|].
  destruct (HM half) as (M & EM & Hd). unfold halfImg. rewrite E. cbn [bind]. rewrite EM. cbn [bind].
  eexists. exists half. split; [reflexivity|].
  assert (Hex : forall k, existsb (Z.eqb k) (keys half) = true <-> get half k <> None).
  { intros k. rewrite get_None, existsb_exists. split.
    - intros (y & Hy & Ey). apply Z.eqb_eq in Ey. subst. tauto.
    - intros Hin. exists k. split; [destruct (in_dec Z.eq_dec k (keys half)); tauto|apply Z.eqb_refl]. }
  split; [|split]; intros p Hp; [intros Hr|intros Hr|].
  - rewrite dels_get. assert (Eh : get half p = None) by (rewrite H1; auto; apply Hk; auto).
    destruct (existsb (Z.eqb p) (keys half)) eqn:Ee; [apply Hex in Ee; congruence|]. split; auto. apply Hd; auto.
  - rewrite dels_get. assert (Eh : get half p = get set p) by (rewrite H2; auto; apply Hk; auto).
    destruct (existsb (Z.eqb p) (keys half)) eqn:Ee; [split; auto|]. exfalso.
    assert (get half p <> None) by (rewrite Eh; apply Hset; auto). apply Hex in H. congruence.
  - rewrite dels_get. assert (Eh : get half p = None) by (rewrite H3; auto; rewrite Hk; auto).
    destruct (existsb (Z.eqb p) (keys half)); split; auto. destruct (get M p) eqn:EMp; auto. exfalso. apply Hp, Hd. congruence.
Qed.

(** C66 *)
Local Open Scope R_scope.
Lemma truncZ_in (x : R) (i : Z) : (0 <= i)%Z -> IZR i <= x < IZR (i + 1) -> truncZ x = i.
Proof.
  intros Hi [H1 H2]. unfold truncZ. assert (0 <= x) by (apply IZR_le in Hi; lra). destruct (Rle_dec 0 x); [|lra].
  symmetry. rewrite plus_IZR in H2. destruct (base_Int_part x) as [B1 B2].
  assert (IZR (Int_part x) < IZR (i + 1)) by (rewrite plus_IZR; lra). assert (IZR i < IZR (Int_part x + 1)) by (rewrite plus_IZR; lra).
  apply lt_IZR in H0, H3. lia.
Qed.

Lemma hue_black h s v : 0 < s -> 300 <= h < 360 -> hsv2rgb h s v = mkRgb 0 0 0.
Proof.
  intros Hs Hh. unfold hsv2rgb. destruct (Rle_dec s 0); [lra|]. destruct (Rle_dec 360 h); [lra|]. cbv zeta.
  rewrite (truncZ_in (h / 60) 5) by (try lia; simpl; lra). reflexivity.
Qed.

Lemma hue_refuted_l : exists h s v, 0 <= h < 360 /\ 0 <= s <= 1 /\ 0 < v /\ channel_max (hsv2rgb h s v) <> v.
Proof.
  exists 330, 1, 1. split; [lra|]. split; [lra|]. split; [lra|]. rewrite hue_black by lra. unfold channel_max. simpl.
  unfold Rmax. repeat destruct (Rle_dec _ _); lra.
Qed.

Lemma max3 x y z v : x <= v -> y <= v -> z <= v -> x = v \/ y = v \/ z = v -> Rmax x (Rmax y z) = v.
Proof.
  intros H1 H2 H3 H. apply Rle_antisym; [repeat apply Rmax_lub; auto|].
  pose proof (Rmax_l x (Rmax y z)). pose proof (Rmax_r x (Rmax y z)). pose proof (Rmax_l y z). pose proof (Rmax_r y z).
  destruct H as [H|[H|H]]; lra.
Qed.

Lemma min3 x y z v : v <= x -> v <= y -> v <= z -> x = v \/ y = v \/ z = v -> Rmin x (Rmin y z) = v.
Proof.
  intros H1 H2 H3 H. apply Rle_antisym; [|repeat apply Rmin_glb; auto].
  pose proof (Rmin_l x (Rmin y z)). pose proof (Rmin_r x (Rmin y z)). pose proof (Rmin_l y z). pose proof (Rmin_r y z).
  destruct H as [H|[H|H]]; lra.
Qed.

Lemma hue_ok_l h s v : 0 <= h < 300 -> 0 <= s <= 1 -> 0 <= v ->
  channel_max (hsv2rgb h s v) = v /\ channel_min (hsv2rgb h s v) = v * (1 - s).
Proof.
  intros Hh Hs Hv. unfold hsv2rgb. destruct (Rle_dec s 0).
  { replace s with 0 by lra. unfold channel_max, channel_min. simpl. unfold Rmax, Rmin. split; repeat destruct (Rle_dec _ _); lra. }
  destruct (Rle_dec 360 h); [lra|]. cbv zeta.
  assert (K : exists i, (0 <= i < 5)%Z /\ IZR i <= h / 60 < IZR (i + 1)).
  { assert (D : 0 <= h / 60 < 5) by lra. exists (Int_part (h / 60)). destruct (base_Int_part (h / 60)) as [B1 B2].
    rewrite plus_IZR. split; [|lra].
    assert (IZR (-1) < IZR (Int_part (h / 60))) by (simpl; lra). assert (IZR (Int_part (h / 60)) < IZR 5) by (simpl; lra).
    apply lt_IZR in H, H0. lia. }
  destruct K as (i & Hi & Hb). rewrite (truncZ_in (h / 60) i) by (auto; lia).
  rewrite plus_IZR in Hb. set (ff := h / 60 - IZR i). assert (Hf : 0 <= ff < 1) by (unfold ff; lra). clearbody ff.
  assert (P1 : 0 <= s * ff <= s) by nra. assert (P2 : 0 <= s * (1 - ff) <= s) by nra.
  assert (Q1 : v * (1 - s) <= v * (1 - s * ff) <= v) by nra. assert (Q2 : v * (1 - s) <= v * (1 - s * (1 - ff)) <= v) by nra.
  assert (Q0 : v * (1 - s) <= v) by nra.
  assert (C : i = 0%Z \/ i = 1%Z \/ i = 2%Z \/ i = 3%Z \/ i = 4%Z) by lia.
  set (a := v * (1 - s)) in *. set (b := v * (1 - s * ff)) in *. set (c := v * (1 - s * (1 - ff))) in *. clearbody a b c.
  destruct C as [-> | [-> | [-> | [-> | ->]]]]; unfold channel_max, channel_min; simpl; split;
    (apply max3 || apply min3); try lra; auto.
Qed.

Lemma shade_at n h s v k m : turn (n + h / 60) = k -> Rmax 0 (Rmin k (Rmin (4 - k) 1)) = m -> shade n h s v = v - v * s * m.
Proof. intros H1 H2. unfold shade. rewrite H1, H2. reflexivity. Qed.
Lemma hue_shades_l h s v : 0 <= h < 300 -> 0 <= s <= 1 -> 0 <= v ->
  hsv2rgb h s v = mkRgb (shade 5 h s v) (shade 3 h s v) (shade 1 h s v).
Proof.
  intros Hh Hs Hv. unfold hsv2rgb. destruct (Rle_dec s 0).
  { replace s with 0 by lra. unfold shade. f_equal; ring. }
  destruct (Rle_dec 360 h); [lra|]. cbv zeta.
  assert (K : exists i, (0 <= i < 5)%Z /\ IZR i <= h / 60 < IZR (i + 1)).
  { assert (D : 0 <= h / 60 < 5) by lra. exists (Int_part (h / 60)). destruct (base_Int_part (h / 60)) as [B1 B2].
    rewrite plus_IZR. split; [|lra].
    assert (IZR (-1) < IZR (Int_part (h / 60))) by (simpl; lra). assert (IZR (Int_part (h / 60)) < IZR 5) by (simpl; lra).
    apply lt_IZR in H, H0. lia. }
  destruct K as (i & Hi & Hb). rewrite (truncZ_in (h / 60) i) by (auto; lia). rewrite plus_IZR in Hb.
  remember (h / 60) as x eqn:Ex.
  assert (C : i = 0%Z \/ i = 1%Z \/ i = 2%Z \/ i = 3%Z \/ i = 4%Z) by lia.
  assert (SH : forall c k m, turn (c + x) = k -> Rmax 0 (Rmin k (Rmin (4 - k) 1)) = m -> shade c h s v = v - v * s * m).
  { intros c k m H1 H2. apply shade_at with (k := k); auto. rewrite <- Ex. auto. }
  assert (T1 : forall y, y < 6 -> turn y = y) by (intros y Hy; unfold turn; destruct (Rlt_dec y 6); lra).
  assert (T2 : forall y, 6 <= y -> turn y = y - 6) by (intros y Hy; unfold turn; destruct (Rlt_dec y 6); lra).
  assert (M0 : forall k, k <= 0 \/ 4 <= k -> Rmax 0 (Rmin k (Rmin (4 - k) 1)) = 0) by (intros k Hk; unfold Rmax, Rmin; repeat destruct (Rle_dec _ _); lra).
  assert (M1 : forall k, 1 <= k <= 3 -> Rmax 0 (Rmin k (Rmin (4 - k) 1)) = 1) by (intros k Hk; unfold Rmax, Rmin; repeat destruct (Rle_dec _ _); lra).
  assert (M2 : forall k, 0 <= k <= 1 -> Rmax 0 (Rmin k (Rmin (4 - k) 1)) = k) by (intros k Hk; unfold Rmax, Rmin; repeat destruct (Rle_dec _ _); lra).
  assert (M3 : forall k, 3 <= k <= 4 -> Rmax 0 (Rmin k (Rmin (4 - k) 1)) = 4 - k) by (intros k Hk; unfold Rmax, Rmin; repeat destruct (Rle_dec _ _); lra).
  assert (ZZ : forall c k m y, turn (c + x) = k -> Rmax 0 (Rmin k (Rmin (4 - k) 1)) = m -> y = v - v * s * m -> y = shade c h s v).
  { intros c k m y H1 H2 ->. symmetry. eapply SH; eauto. }
  destruct C as [-> | [-> | [-> | [-> | ->]]]]; simpl in Hb |- *; f_equal.
  - destruct (Rlt_dec (5 + x) 6); [eapply ZZ; [apply T1; lra|apply M0; lra|ring]|eapply ZZ; [apply T2; lra|apply M0; lra|ring]].
  - eapply ZZ; [apply T1; lra|apply M3; lra|ring].
  - eapply ZZ; [apply T1; lra|apply M1; lra|ring].
  - eapply ZZ; [apply T2; lra|apply M2; lra|ring].
  - eapply ZZ; [apply T1; lra|apply M0; lra|ring].
  - eapply ZZ; [apply T1; lra|apply M1; lra|ring].
  - eapply ZZ; [apply T2; lra|apply M1; lra|ring].
  - eapply ZZ; [apply T1; lra|apply M0; lra|ring].
  - eapply ZZ; [apply T1; lra|apply M3; lra|ring].
  - eapply ZZ; [apply T2; lra|apply M1; lra|ring].
  - eapply ZZ; [apply T2; lra|apply M2; lra|ring].
  - eapply ZZ; [apply T1; lra|apply M0; lra|ring].
  - eapply ZZ; [apply T2; lra|apply M3; lra|ring].
  - eapply ZZ; [apply T2; lra|apply M1; lra|ring].
  - eapply ZZ; [apply T1; lra|apply M0; lra|ring].
Qed.
