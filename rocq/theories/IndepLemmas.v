(** Proofs about contingency tables, the G statistic and the independence graphs. *)
From Coq Require Import Relations.
From Verif Require Import Base Res Arith UnionFind UnionSpec UnionLemmas Indep IndepSpec.
Local Open Scope Z_scope.

(** Tables as functions. *)
Definition tab (f : nat -> nat -> Z) (P Q : nat) : list (list Z) := map (fun x => map (f x) (seq 0 Q)) (seq 0 P).
Definition upd2 (f : nat -> nat -> Z) (x y : nat) (v : Z) : nat -> nat -> Z :=
  fun a b => if (Nat.eqb a x && Nat.eqb b y)%bool then v else f a b.

Lemma nth_map_seq {T} (f : nat -> T) n i : (i < n)%nat -> nth_error (map f (seq 0 n)) i = Some (f i).
Proof. intros H. rewrite nth_error_map, (nth_error_nth' _ 0%nat) by (rewrite seq_length; auto). rewrite seq_nth by auto. auto. Qed.
Lemma nth_map_seq_none {T} (f : nat -> T) n i : (n <= i)%nat -> nth_error (map f (seq 0 n)) i = None.
Proof. intros H. apply nth_error_None. rewrite map_length, seq_length. auto. Qed.
Lemma set_map_seq {T} (f : nat -> T) n i v : set_nth i v (map f (seq 0 n)) = map (fun j => if Nat.eqb j i then v else f j) (seq 0 n).
Proof.
  apply nth_error_ext. intros j. destruct (Nat.lt_ge_cases j n) as [H|H].
  - rewrite (nth_map_seq _ _ j) by auto. destruct (Nat.eqb_spec j i) as [->|Hn].
    + apply nth_error_set_nth_same. rewrite map_length, seq_length. auto.
    + rewrite nth_error_set_nth_diff by auto. apply nth_map_seq. auto.
  - rewrite nth_map_seq_none by auto. apply nth_error_None. rewrite set_nth_length, map_length, seq_length. auto.
Qed.

Lemma tab_get f P Q x y : (x < P)%nat -> (y < Q)%nat -> getM (tab f P Q) x y = Ok (f x y).
Proof. intros Hx Hy. unfold getM, tab, idx. rewrite nth_map_seq by auto. cbn [bind]. rewrite nth_map_seq by auto. auto. Qed.
Lemma tab_ext f g P Q : (forall x y, (x < P)%nat -> (y < Q)%nat -> f x y = g x y) -> tab f P Q = tab g P Q.
Proof.
  intros H. unfold tab. apply map_ext_in. intros x Hx. apply in_seq in Hx. apply map_ext_in. intros y Hy. apply in_seq in Hy. apply H; lia.
Qed.
Lemma tab_set f P Q x y v : (x < P)%nat -> (y < Q)%nat -> setM (tab f P Q) x y v = Ok (tab (upd2 f x y v) P Q).
Proof.
  intros Hx Hy. unfold setM, tab, idx. rewrite nth_map_seq by auto. cbn [bind]. rewrite nth_map_seq by auto. cbn [bind].
  f_equal. rewrite !set_map_seq. apply map_ext. intros a. unfold upd2. destruct (Nat.eqb_spec a x) as [->|]; cbn [andb]; auto.
Qed.
Lemma tab_at f P Q x y : (x < P)%nat -> (y < Q)%nat -> at_ (tab f P Q) x y (f x y).
Proof. intros Hx Hy. exists (map (f x) (seq 0 Q)). unfold tab. rewrite !nth_map_seq by auto. auto. Qed.

Definition sumTo (g : nat -> Z) (n : nat) : Z := fold_right Z.add 0 (map g (seq 0 n)).
Lemma sumTo_S g n : sumTo g (S n) = sumTo g n + g n.
Proof.
  unfold sumTo. rewrite seq_S, map_app, fold_right_app. simpl. 
  assert (H : forall l a, fold_right Z.add a l = fold_right Z.add 0 l + a).
  { induction l as [|b l IH]; intros a; simpl; [lia|]. rewrite IH. lia. }
  rewrite H. lia.
Qed.
Lemma sumTo_ext g h n : (forall i, (i < n)%nat -> g i = h i) -> sumTo g n = sumTo h n.
Proof. intros H. unfold sumTo. f_equal. apply map_ext_in. intros i Hi. apply in_seq in Hi. apply H. lia. Qed.

Lemma range0 n : range 0 n = seq 0 n.
Proof. unfold range. rewrite Nat.sub_0_r. auto. Qed.
Lemma range0_S n : range 0 (S n) = range 0 n ++ [n].
Proof. rewrite !range0. apply seq_S. Qed.
Lemma foldr_app_ {T S} (f : S -> T -> res S) l1 l2 s : foldr_ f (l1 ++ l2) s = (s' <- foldr_ f l1 s; foldr_ f l2 s').
Proof. revert s. induction l1 as [|c l1 IH]; intros s; simpl; auto. destruct (f s c); simpl; auto. Qed.

(** Counting. *)
Lemma count_loop P Q (xs : list Z) : forall ys pre f,
  (forall v, In v xs -> 0 <= v <= Z.of_nat P) -> (forall v, In v ys -> 0 <= v <= Z.of_nat Q) -> length ys = length xs ->
  foldi_from (length pre) (fun k m a =>
           b <- idx (pre ++ ys) k;
           if (a <? 0) || (b <? 0) then Panic
           else v <- getM m (Z.to_nat a) (Z.to_nat b); setM m (Z.to_nat a) (Z.to_nat b) (v + 1))
        xs (tab f (S P) (S Q)) =
  Ok (tab (fun a b => f a b + howmany (fun ab => (fst ab =? Z.of_nat a) && (snd ab =? Z.of_nat b)) (combine xs ys)) (S P) (S Q)).
Proof.
  induction xs as [|x xs IH]; intros ys pre f Hx Hy Hl.
  - destruct ys; [|discriminate]. cbn [foldi_from combine]. f_equal. apply tab_ext. intros. unfold howmany. simpl. lia.
  - destruct ys as [|y ys]; [discriminate|]. cbn [foldi_from]. unfold idx at 1.
    rewrite nth_error_app2 by lia. rewrite Nat.sub_diag. cbn [nth_error bind].
    pose proof (Hx x (or_introl eq_refl)). pose proof (Hy y (or_introl eq_refl)).
    replace (x <? 0) with false by (symmetry; apply Z.ltb_ge; lia). replace (y <? 0) with false by (symmetry; apply Z.ltb_ge; lia). cbn [orb].
    rewrite tab_get by lia. cbn [bind]. rewrite tab_set by lia. cbn [bind].
    replace (pre ++ y :: ys) with ((pre ++ [y]) ++ ys) by (rewrite <- app_assoc; auto).
    replace (length pre + 1)%nat with (length (pre ++ [y])) by (rewrite app_length; auto).
    rewrite IH; [|intros; apply Hx; right; auto|intros; apply Hy; right; auto|auto].
    f_equal. apply tab_ext. intros a b Ha Hb. unfold upd2, howmany. cbn [combine filter fst snd].
    destruct (Nat.eqb_spec a (Z.to_nat x)) as [->|Hn]; [destruct (Nat.eqb_spec b (Z.to_nat y)) as [->|Hn]|]; cbn [andb].
    + rewrite !Z2Nat.id by lia. rewrite !Z.eqb_refl. cbn [andb length]. lia.
    + replace (y =? Z.of_nat b) with false by (symmetry; apply Z.eqb_neq; lia). rewrite andb_false_r. lia.
    + replace (x =? Z.of_nat a) with false by (symmetry; apply Z.eqb_neq; lia). cbn [andb]. lia.
Qed.

Lemma repeat_map_seq {T} (v : T) n : repeat v n = map (fun _ => v) (seq 0 n).
Proof. apply nth_error_ext. intros i. destruct (Nat.lt_ge_cases i n) as [H|H].
  - rewrite nth_map_seq by auto. apply nth_error_repeat. auto.
  - rewrite nth_map_seq_none by auto. apply nth_error_None. rewrite repeat_length. auto.
Qed.

Lemma countPairs_ok P Q xs ys : (forall v, In v xs -> 0 <= v <= Z.of_nat P) -> (forall v, In v ys -> 0 <= v <= Z.of_nat Q) -> length ys = length xs ->
  countPairs (Z.of_nat P) (Z.of_nat Q) xs ys =
  Ok (tab (fun a b => howmany (fun ab => (fst ab =? Z.of_nat a) && (snd ab =? Z.of_nat b)) (combine xs ys)) (S P) (S Q)).
Proof.
  intros Hx Hy Hl. unfold countPairs. replace (Z.of_nat P + 1 <? 0) with false by (symmetry; apply Z.ltb_ge; lia).
  replace (Z.of_nat P + 1 =? 0) with false by (symmetry; apply Z.eqb_neq; lia). unfold makeInts.
  replace (Z.of_nat Q + 1 <? 0) with false by (symmetry; apply Z.ltb_ge; lia). cbn [bind].
  replace (Z.to_nat (Z.of_nat P + 1)) with (S P) by lia. replace (Z.to_nat (Z.of_nat Q + 1)) with (S Q) by lia.
  replace (repeat (repeat 0 (S Q)) (S P)) with (tab (fun _ _ => 0) (S P) (S Q)).
  2:{ unfold tab. rewrite (repeat_map_seq (repeat 0 (S Q)) (S P)). apply map_ext. intros. symmetry. apply repeat_map_seq. }
  unfold foldi. change 0%nat with (length (@nil Z)). 
  etransitivity; [exact (count_loop P Q xs ys [] _ Hx Hy Hl)|]. reflexivity.
Qed.

Lemma marginRow_ok P Q f x tx : (x < P)%nat ->
  marginRow Q x (tab f (S P) (S Q), map tx (seq 0 Q)) =
  Ok (tab (upd2 f x Q (sumTo (f x) Q)) (S P) (S Q), map (fun y => tx y + f x y) (seq 0 Q)).
Proof.
  intros Hx. unfold marginRow.
  assert (G : forall n, (n <= Q)%nat ->
    foldr_ (fun (s : list Z * Z) y => v <- getM (tab f (S P) (S Q)) x y; t <- idx (fst s) y; Ok (set_nth y (t + v) (fst s), snd s + v))
      (range 0 n) (map tx (seq 0 Q), 0) = Ok (map (fun y => if (y <? n)%nat then tx y + f x y else tx y) (seq 0 Q), sumTo (f x) n)).
  { induction n as [|n IH]; intros Hn.
    - reflexivity.
    - rewrite range0_S, foldr_app_, IH by lia. cbn [bind foldr_]. rewrite tab_get by lia. cbn [bind fst snd].
      unfold idx. rewrite nth_map_seq by lia. cbn [bind]. rewrite set_map_seq, sumTo_S. f_equal. f_equal.
      apply map_ext. intros y. destruct (Nat.eqb_spec y n) as [->|Hne].
      + rewrite (proj2 (Nat.ltb_ge n n)), (proj2 (Nat.ltb_lt n (S n))) by lia. auto.
      + destruct (Nat.ltb_spec y n), (Nat.ltb_spec y (S n)); auto; lia. }
  rewrite G by lia. cbn [bind fst snd]. rewrite tab_set by lia. cbn [bind]. f_equal. f_equal.
  apply map_ext_in. intros y Hy. apply in_seq in Hy. rewrite (proj2 (Nat.ltb_lt y Q)) by lia. auto.
Qed.

(** The margins of the table o. *)
Definition full (o : nat -> nat -> Z) (P Q a b : nat) : Z :=
  if (a <? P)%nat then (if (b <? Q)%nat then o a b else sumTo (o a) Q)
  else if (b <? Q)%nat then sumTo (fun i => o i b) P else sumTo (fun i => sumTo (o i) Q) P.

Lemma sum_swap o P Q : sumTo (fun b => sumTo (fun i => o i b) P) Q = sumTo (fun i => sumTo (o i) Q) P.
Proof.
  induction P as [|P IH].
  - unfold sumTo at 2. simpl. assert (H : forall n, sumTo (fun b => sumTo (fun i => o i b) 0) n = 0); [|apply H].
    induction n; [auto|rewrite sumTo_S, IHn; auto].
  - rewrite (sumTo_S (fun i => sumTo (o i) Q) P), <- IH. assert (H : forall n, sumTo (fun b => sumTo (fun i => o i b) (S P)) n = sumTo (fun b => sumTo (fun i => o i b) P) n + sumTo (o P) n).
    { induction n; [auto|]. rewrite (sumTo_S (fun b => sumTo (fun i => o i b) (S P))), IHn, (sumTo_S (fun i => o i n)), (sumTo_S (fun b => sumTo (fun i => o i b) P)), (sumTo_S (o P)). lia. }
    apply H.
Qed.

Lemma contingency_full P Q xs ys (o := fun a b : nat => howmany (fun ab => (fst ab =? Z.of_nat a) && (snd ab =? Z.of_nat b)) (combine xs ys)) :
  (forall v, In v xs -> 0 <= v <= Z.of_nat P) -> (forall v, In v ys -> 0 <= v <= Z.of_nat Q) -> length ys = length xs ->
  contingency (Z.of_nat P) (Z.of_nat Q) xs ys = Ok (tab (full o P Q) (S P) (S Q)).
Proof.
  intros Hx Hy Hl. unfold contingency. rewrite countPairs_ok by auto. cbn [bind]. fold o. unfold makeInts.
  replace (Z.of_nat Q <? 0) with false by (symmetry; apply Z.ltb_ge; lia). cbn [bind].
  replace (Z.of_nat P <? 0) with false by (symmetry; apply Z.ltb_ge; lia). rewrite !Nat2Z.id. cbn [orb].
  rewrite (repeat_map_seq 0 Q).
  assert (G : forall n, (n <= P)%nat -> 
    foldr_ (fun st x => marginRow Q x st) (range 0 n) (tab o (S P) (S Q), map (fun _ => 0) (seq 0 Q)) =
    Ok (tab (fun a b => if ((a <? n)%nat && Nat.eqb b Q)%bool then sumTo (o a) Q else o a b) (S P) (S Q), map (fun y => sumTo (fun i => o i y) n) (seq 0 Q))).
  { induction n as [|n IH]; intros Hn.
    - reflexivity.
    - rewrite range0_S, foldr_app_, IH by lia. cbn [bind foldr_]. rewrite marginRow_ok by lia. cbn [bind]. f_equal. f_equal.
      + apply tab_ext. intros a b Ha Hb. unfold upd2. destruct (Nat.eqb_spec a n) as [->|Hne].
        * rewrite (proj2 (Nat.ltb_ge n n)), (proj2 (Nat.ltb_lt n (S n))) by lia. cbn [andb]. destruct (Nat.eqb b Q); auto.
        * cbn [andb]. destruct (Nat.ltb_spec a n), (Nat.ltb_spec a (S n)); auto; lia.
      + apply map_ext_in. intros y Hy'. apply in_seq in Hy'. rewrite sumTo_S, (proj2 (Nat.ltb_ge n n)) by lia. auto. }
  rewrite G by lia. cbn [bind fst snd]. clear G.
  set (f1 := fun a b : nat => if ((a <? P)%nat && Nat.eqb b Q)%bool then sumTo (o a) Q else o a b).
  assert (G : forall n, (n <= Q)%nat ->
    foldr_ (fun (s : list (list Z) * Z) y => t <- idx (map (fun y0 => sumTo (fun i => o i y0) P) (seq 0 Q)) y; m' <- setM (fst s) P y t; Ok (m', snd s + t))
      (range 0 n) (tab f1 (S P) (S Q), 0) =
    Ok (tab (fun a b => if (Nat.eqb a P && (b <? n)%nat)%bool then sumTo (fun i => o i b) P else f1 a b) (S P) (S Q), sumTo (fun b => sumTo (fun i => o i b) P) n)).
  { induction n as [|n IH]; intros Hn.
    - cbn [range seq Nat.sub foldr_]. f_equal. f_equal. apply tab_ext. intros. rewrite andb_false_r. auto.
    - rewrite range0_S, foldr_app_, IH by lia. cbn [bind foldr_ fst snd]. unfold idx. rewrite nth_map_seq by lia. cbn [bind].
      rewrite tab_set by lia. cbn [bind]. f_equal. f_equal; [|rewrite sumTo_S; auto].
      apply tab_ext. intros a b Ha Hb. unfold upd2. destruct (Nat.eqb_spec a P) as [->|]; cbn [andb]; auto.
      destruct (Nat.eqb_spec b n) as [->|]. { rewrite (proj2 (Nat.ltb_lt n (S n))) by lia. auto. }
      destruct (Nat.ltb_spec b n), (Nat.ltb_spec b (S n)); auto; lia. }
  rewrite G by lia. cbn [bind fst snd]. rewrite tab_set by lia. f_equal. apply tab_ext. intros a b Ha Hb. unfold upd2, full, f1.
  rewrite sum_swap.
  destruct (Nat.eqb_spec a P) as [->|Hne]; cbn [andb].
  - rewrite (proj2 (Nat.ltb_ge P P)) by lia. destruct (Nat.eqb_spec b Q) as [->|]; [rewrite (proj2 (Nat.ltb_ge Q Q)) by lia; auto|].
    rewrite (proj2 (Nat.ltb_lt b Q)) by lia. auto.
  - rewrite (proj2 (Nat.ltb_lt a P)) by lia. cbn [andb]. destruct (Nat.eqb_spec b Q) as [->|]; [rewrite (proj2 (Nat.ltb_ge Q Q)) by lia; auto|].
    rewrite (proj2 (Nat.ltb_lt b Q)) by lia. auto.
Qed.

Lemma howmany_cons {T} (f : T -> bool) x l : howmany f (x :: l) = (if f x then 1 else 0) + howmany f l.
Proof. unfold howmany. simpl. destruct (f x); simpl length; lia. Qed.

Lemma sum_delta n c (x : Z) : 0 <= x < Z.of_nat n -> sumTo (fun i => if x =? Z.of_nat i then c else 0) n = c.
Proof.
  revert x. induction n as [|n IH]; intros x Hx; [lia|]. rewrite sumTo_S. destruct (Z.eqb_spec x (Z.of_nat n)) as [->|].
  - rewrite (sumTo_ext _ (fun _ => 0)).
    + assert (H : forall m, sumTo (fun _ => 0) m = 0) by (induction m; [auto|rewrite sumTo_S; lia]). rewrite H. lia.
    + intros i Hi. destruct (Z.eqb_spec (Z.of_nat n) (Z.of_nat i)); auto; lia.
  - rewrite IH by lia. lia.
Qed.
Lemma sumTo_add g h n : sumTo (fun i => g i + h i) n = sumTo g n + sumTo h n.
Proof. induction n; [auto|]. rewrite !sumTo_S, IHn. lia. Qed.
Lemma sumTo_zero n : sumTo (fun _ => 0) n = 0.
Proof. induction n; [auto|]. rewrite sumTo_S. lia. Qed.

Lemma row_total Q xs : forall ys a, (forall v, In v ys -> 0 <= v < Z.of_nat Q) -> length ys = length xs ->
  sumTo (fun b => howmany (fun ab : Z * Z => (fst ab =? Z.of_nat a) && (snd ab =? Z.of_nat b)) (combine xs ys)) Q = howmany (Z.eqb (Z.of_nat a)) xs.
Proof.
  induction xs as [|x xs IH]; intros ys a Hy Hl; destruct ys as [|y ys]; try discriminate.
  - cbn [combine]. apply sumTo_zero.
  - cbn [combine]. rewrite howmany_cons, <- (IH ys) by (auto; intros; apply Hy; right; auto).
    etransitivity; [apply sumTo_ext; intros; apply howmany_cons|]. rewrite sumTo_add. f_equal. cbn [fst snd].
    rewrite Z.eqb_sym. destruct (Z.of_nat a =? x); cbn [andb]; [|apply sumTo_zero].
    apply sum_delta. apply Hy. left; auto.
Qed.
Lemma col_total P xs : forall ys b, (forall v, In v xs -> 0 <= v < Z.of_nat P) -> length ys = length xs ->
  sumTo (fun a => howmany (fun ab : Z * Z => (fst ab =? Z.of_nat a) && (snd ab =? Z.of_nat b)) (combine xs ys)) P = howmany (Z.eqb (Z.of_nat b)) ys.
Proof.
  induction xs as [|x xs IH]; intros ys b Hx Hl; destruct ys as [|y ys]; try discriminate.
  - cbn [combine]. apply sumTo_zero.
  - cbn [combine]. rewrite howmany_cons, <- (IH ys) by (auto; intros; apply Hx; right; auto).
    etransitivity; [apply sumTo_ext; intros; apply howmany_cons|]. rewrite sumTo_add. f_equal. cbn [fst snd].
    rewrite (Z.eqb_sym (Z.of_nat b)). destruct (y =? Z.of_nat b).
    + etransitivity; [|apply (sum_delta P 1 x); apply Hx; left; auto]. apply sumTo_ext. intros. rewrite andb_true_r. auto.
    + etransitivity; [|apply (sumTo_zero P)]. apply sumTo_ext. intros. rewrite andb_false_r. auto.
Qed.
Lemma all_total P xs : (forall v, In v xs -> 0 <= v < Z.of_nat P) -> sumTo (fun a => howmany (Z.eqb (Z.of_nat a)) xs) P = Z.of_nat (length xs).
Proof.
  induction xs as [|x xs IH]; intros Hx; [apply sumTo_zero|].
  etransitivity; [apply sumTo_ext; intros; apply howmany_cons|]. rewrite sumTo_add, IH by (intros; apply Hx; right; auto).
  rewrite (sumTo_ext _ (fun i => if x =? Z.of_nat i then 1 else 0)) by (intros; rewrite Z.eqb_sym; auto).
  rewrite sum_delta by (apply Hx; left; auto). simpl length. lia.
Qed.

Lemma contingency_l p q xs ys : 0 <= p -> 0 <= q ->
  (forall v, In v xs -> 0 <= v < p) -> (forall v, In v ys -> 0 <= v < q) -> length ys = length xs ->
  exists m, contingency p q xs ys = Ok m /\ length m = S (Z.to_nat p) /\ (forall r, In r m -> length r = S (Z.to_nat q)) /\
    (forall a b, 0 <= a < p -> 0 <= b < q -> at_ m (Z.to_nat a) (Z.to_nat b) (howmany (fun ab => (fst ab =? a) && (snd ab =? b)) (combine xs ys))) /\
    (forall a, 0 <= a < p -> at_ m (Z.to_nat a) (Z.to_nat q) (howmany (Z.eqb a) xs)) /\
    (forall b, 0 <= b < q -> at_ m (Z.to_nat p) (Z.to_nat b) (howmany (Z.eqb b) ys)) /\
    at_ m (Z.to_nat p) (Z.to_nat q) (Z.of_nat (length xs)).
Proof.
  intros Hp Hq Hx Hy Hl. rewrite <- (Z2Nat.id p), <- (Z2Nat.id q) in * by lia. set (P := Z.to_nat p) in *. set (Q := Z.to_nat q) in *.
  rewrite contingency_full by (auto; intros v Hv; (apply Hx in Hv || apply Hy in Hv); lia). eexists. split; [reflexivity|]. rewrite !Nat2Z.id.
  set (o := fun a b : nat => _).
  split; [unfold tab; rewrite map_length, seq_length; auto|]. split.
  { intros r Hr. apply in_map_iff in Hr as (x & <- & _). rewrite map_length, seq_length. auto. }
  split; [|split; [|split]].
  - intros a b Ha Hb. replace (howmany _ _) with (full o P Q (Z.to_nat a) (Z.to_nat b)); [apply tab_at; lia|].
    unfold full. rewrite (proj2 (Nat.ltb_lt _ P)), (proj2 (Nat.ltb_lt _ Q)) by lia. unfold o. rewrite !Z2Nat.id by lia. auto.
  - intros a Ha. replace (howmany _ _) with (full o P Q (Z.to_nat a) Q); [apply tab_at; lia|].
    unfold full. rewrite (proj2 (Nat.ltb_lt _ P)), (proj2 (Nat.ltb_ge Q Q)) by lia. unfold o.
    rewrite row_total by auto. rewrite Z2Nat.id by lia. auto.
  - intros b Hb. replace (howmany _ _) with (full o P Q P (Z.to_nat b)); [apply tab_at; lia|].
    unfold full. rewrite (proj2 (Nat.ltb_ge P P)), (proj2 (Nat.ltb_lt _ Q)) by lia. unfold o.
    rewrite (col_total P xs ys) by auto. rewrite Z2Nat.id by lia. auto.
  - replace (Z.of_nat (length xs)) with (full o P Q P Q); [apply tab_at; lia|].
    unfold full. rewrite (proj2 (Nat.ltb_ge P P)), (proj2 (Nat.ltb_ge Q Q)) by lia.
    rewrite <- (all_total P xs) by auto. apply sumTo_ext. intros i _. unfold o. apply row_total; auto.
Qed.
