(** Proofs about PartitionByLabels. *)
From Coq Require Import Reals Lra.
From Verif Require Import Base Res Arith LogSpec LogLemmas GoMap Data DataSpec DataLemmas DataLoops DataRows DataParts.

Lemma foldr_map {A B T} (f : T -> B -> res T) (g : A -> B) l : forall s, foldr_ f (map g l) s = foldr_ (fun s x => f s (g x)) l s.
Proof. induction l as [|x l IH]; intros s; simpl; auto. destruct (f s (g x)); simpl; auto. Qed.
Lemma firstn_split {T} (l : list T) a b : firstn (a + b) l = firstn a l ++ firstn b (skipn a l).
Proof. revert l. induction a as [|a IH]; intros [|x l]; simpl; auto; [rewrite firstn_nil; auto|]. f_equal. auto. Qed.
Lemma skipn_skipn' {T} (l : list T) a b : skipn b (skipn a l) = skipn (a + b) l.
Proof. revert l. induction a as [|a IH]; intros [|x l]; simpl; auto. apply skipn_nil. Qed.
Lemma map_nth_seq' {T} (l : list T) d : map (fun i => nth i l d) (seq 0 (length l)) = l.
Proof.
  apply nth_error_ext. intros i. rewrite nth_error_map. destruct (Nat.lt_ge_cases i (length l)) as [H|H].
  - rewrite (nth_error_nth' _ 0) by (rewrite seq_length; auto). rewrite seq_nth by auto. simpl. rewrite (nth_error_nth' _ d) by auto. auto.
  - rewrite (proj2 (nth_error_None l i)) by auto. rewrite (proj2 (nth_error_None (seq 0 (length l)) i)) by (rewrite seq_length; auto). auto.
Qed.

Definition haslab (L : list Z) (j i : nat) : bool := match nth_error L i with Some x => Z.eqb (Z.of_nat j) x | None => false end.
Definition cls (L : list Z) (j : nat) : list nat := where_label (Z.eqb (Z.of_nat j)) L.

Lemma byClass_ok L c : (0 <= c)%Z -> (forall l, In l L -> 0 <= l < c)%Z ->
  byClass (length L) L c = Ok (map (cls L) (seq 0 (Z.to_nat c))).
Proof.
  intros Hc Hl. unfold byClass. destruct (Z.ltb_spec c 0); [lia|]. set (N := Z.to_nat c).
  set (I := fun pre : list nat => map (fun j => filter (haslab L j) pre) (seq 0 N)).
  assert (E0 : repeat [] N = I []) by (symmetry; apply (map_const_repeat (@nil nat) N 0)). rewrite E0.
  rewrite (foldr_pre _ I (seq 0 (length L))); [reflexivity|]. intros pre i post E.
  assert (Hi : i < length L) by (assert (Hin : In i (seq 0 (length L))) by (rewrite E; apply in_or_app; right; left; auto); apply in_seq in Hin; lia).
  pose proof (nth_error_nth' L 0%Z Hi) as En. rewrite (idx_ok _ _ _ En). cbn [bind]. pose proof (Hl _ (nth_In L 0%Z Hi)) as Hb.
  set (b := Z.to_nat (nth i L 0%Z)). assert (HbN : b < N) by (unfold b, N; lia).
  assert (Eb : nth i L 0%Z = Z.of_nat b) by (unfold b; lia). rewrite Eb at 1. unfold I at 1 2.
  rewrite (idxZ_ok _ _ _ (nth_error_map_seq (fun j => filter (haslab L j) pre) b N HbN)). cbn [bind]. f_equal. fold b. unfold I.
  apply set_nth_map_seq; auto.
  - rewrite filter_app. cbn [filter]. unfold haslab at 2. rewrite En. destruct (Z.eqb_spec (Z.of_nat b) (nth i L 0%Z)); auto. unfold b in *. lia.
  - intros b' Hne. rewrite filter_app. cbn [filter]. unfold haslab at 2. rewrite En. destruct (Z.eqb_spec (Z.of_nat b') (nth i L 0%Z)); [unfold b in *; lia|]. apply app_nil_r.
Qed.

Lemma cls_in L j i : In i (cls L j) -> i < length L /\ nth_error L i = Some (Z.of_nat j).
Proof.
  unfold cls, where_label. intros H. apply filter_In in H as [H1 H2]. apply in_seq in H1. split; [lia|].
  destruct (nth_error L i) as [x|]; [|discriminate]. apply Z.eqb_eq in H2. subst. auto.
Qed.

Lemma cls_perm L N : (forall l, In l L -> 0 <= l < Z.of_nat N)%Z -> Permutation (concat (map (cls L) (seq 0 N))) (seq 0 (length L)).
Proof.
  intros Hl. unfold cls, where_label. assert (G : forall is, (forall i, In i is -> i < length L) ->
    Permutation (concat (map (fun j => filter (haslab L j) is) (seq 0 N))) is).
  { induction is as [|i is IH]; intros Hi.
    - clear. induction (seq 0 N); simpl; auto.
    - specialize (IH ltac:(intros; apply Hi; right; auto)). pose proof (Hi i (or_introl eq_refl)) as Hlt. pose proof (Hl _ (nth_In L 0%Z Hlt)) as Hb.
      assert (E : map (fun j => filter (haslab L j) (i :: is)) (seq 0 N) = map (fun j => (if Z.eqb (Z.of_nat j) (nth i L 0%Z) then [i] else []) ++ filter (haslab L j) is) (seq 0 N)).
      { apply map_ext. intros j. cbn [filter]. unfold haslab at 1. rewrite (nth_error_nth' L 0%Z Hlt). destruct (Z.eqb _ _); auto. }
      rewrite E, concat_map_app, IH. clear E IH. change (i :: is) with ([i] ++ is). apply Permutation_app_tail.
      assert (Hin : In (Z.to_nat (nth i L 0%Z)) (seq 0 N)) by (apply in_seq; lia). revert Hin. generalize (seq_NoDup N 0). generalize (seq 0 N).
      induction l as [|j l IHl]; intros HN Hin; [destruct Hin|]. inversion HN as [|? ? H1 H2]; subst. cbn [map concat].
      destruct (Z.eqb_spec (Z.of_nat j) (nth i L 0%Z)) as [Ej|Ej].
      + assert (Ez : concat (map (fun j => if Z.eqb (Z.of_nat j) (nth i L 0%Z) then [i] else []) l) = []).
        { clear -H1 Ej. induction l as [|k l IH]; simpl; auto. destruct (Z.eqb_spec (Z.of_nat k) (nth i L 0%Z)); [elim H1; left; lia|]. apply IH. intros ?. apply H1. right. auto. }
        rewrite Ez. auto.
      + destruct Hin as [Hin|Hin]; [lia|]. apply IHl; auto. }
  apply G. intros i Hi. apply in_seq in Hi. lia.
Qed.

Lemma mapi_pure {A B} (g : A -> B) l : forall k, mapi_from k (fun _ x => Ok (g x)) l = Ok (map g l).
Proof. induction l as [|x l IH]; intros k; simpl; auto. rewrite IH. auto. Qed.

Lemma Forall2_len {A B} (P : A -> B -> Prop) l m : Forall2 P l m -> length l = length m.
Proof. induction 1; simpl; auto. Qed.

Section B.
Variable ord : nat -> gmap -> gmap.
Hypothesis Hord : visits_all ord.
Variable h : heap.
Hypothesis G : good_heap h.
Variable D : list nat.
Hypothesis HD : rows_exist h D.
Variable L : list Z.
Hypothesis HL : length L = length D.
Variable N : nat.
Variable Rs : list (list nat).
Hypothesis HRl : length Rs = N.
Hypothesis HR : forall j, j < N -> Permutation (nth j Rs []) (seq 0 (length (cls L j))).

Definition sel (k z j : nat) : list nat := map (fun l => nth l (cls L j) 0) (firstn z (skipn k (nth j Rs []))).

Lemma sel_in k z j i : j < N -> In i (sel k z j) -> In i (cls L j).
Proof.
  intros Hj H. unfold sel in H. apply in_map_iff in H as (l & <- & Hl). apply nth_In.
  assert (Hin : In l (nth j Rs [])) by (rewrite <- (firstn_skipn k); apply in_or_app; right; rewrite <- (firstn_skipn z); apply in_or_app; auto).
  apply (Permutation_in _ (HR j Hj)), in_seq in Hin. lia.
Qed.
Lemma sel_len k z j : k + z <= length (nth j Rs []) -> length (sel k z j) = z.
Proof. intros H. unfold sel. rewrite map_length, firstn_length_le; auto. rewrite skipn_length. lia. Qed.
Lemma sel_app k a b j : sel k a j ++ sel (k + a) b j = sel k (a + b) j.
Proof. unfold sel. rewrite <- map_app. f_equal. rewrite firstn_split, skipn_skipn'. auto. Qed.

Definition inD (is : list nat) : Prop := forall i, In i is -> i < length D.

Lemma takeClass_ok j z : j < N -> forall k is out lab, inD is -> k + z <= length (nth j Rs []) ->
  takeClass ord z (hdup ord h (picked D is)) D (nth j Rs []) (cls L j) (Z.of_nat j) k out lab =
  Ok (hdup ord h (picked D (is ++ sel k z j)), out ++ seq (nxt h + length is) z, lab ++ repeat (Z.of_nat j) z, k + z).
Proof.
  intros Hj. induction z as [|z IH]; intros k is out lab His Hk.
  - unfold sel. cbn [takeClass firstn map seq repeat]. rewrite !app_nil_r, Nat.add_0_r. auto.
  - cbn [takeClass seq repeat]. destruct (nth_error (nth j Rs []) k) as [l|] eqn:El; [|apply nth_error_None in El; lia]. rewrite (idx_ok _ _ _ El). cbn [bind].
    assert (Hl : l < length (cls L j)) by (apply nth_error_In in El; apply (Permutation_in _ (HR j Hj)), in_seq in El; lia).
    rewrite (idx_ok _ _ _ (nth_error_nth' (cls L j) 0 Hl)). cbn [bind]. set (u := nth l (cls L j) 0).
    assert (Hu : u < length D) by (rewrite <- HL; apply (cls_in L j u), nth_In; auto).
    rewrite (idx_ok _ _ _ (nth_error_nth' D 0 Hu)). cbn [bind]. cbv zeta.
    rewrite (pushDup_picked ord Hord h G D HD is u) by (try (apply nth_error_nth'; auto); auto). cbn [fst snd].
    rewrite IH by (try lia; intros i Hi; apply in_app_or in Hi as [Hi|[<-|[]]]; auto).
    assert (Es : sel k (S z) j = u :: sel (S k) z j).
    { change (S z) with (1 + z). rewrite <- sel_app. rewrite Nat.add_1_r. change (u :: sel (S k) z j) with ([u] ++ sel (S k) z j). f_equal. unfold sel.
      destruct (skipn k (nth j Rs [])) as [|y t] eqn:Ey; [pose proof (skipn_length k (nth j Rs [])) as Hx; rewrite Ey in Hx; simpl in Hx; lia|].
      assert (Ex : nth_error (skipn k (nth j Rs [])) 0 = Some l) by (rewrite nth_error_skipn, Nat.add_0_r; auto). rewrite Ey in Ex. simpl in Ex. injection Ex as ->. auto. }
    rewrite Es, <- !app_assoc, app_length. cbn [app length]. rewrite Nat.add_1_r. replace (nxt h + S (length is)) with (S (nxt h + length is)) by lia. replace (k + S z) with (S k + z) by lia. auto.
Qed.

Definition partRows (kf zf : nat -> nat) (n : nat) : list nat := concat (map (fun j => sel (kf j) (zf j) j) (seq 0 n)).
Definition partLabs (zf : nat -> nat) (n : nat) : list Z := concat (map (fun j => repeat (Z.of_nat j) (zf j)) (seq 0 n)).

Lemma partRows_S kf zf n : partRows kf zf (S n) = partRows kf zf n ++ sel (kf n) (zf n) n.
Proof. unfold partRows. rewrite seq_S, map_app, concat_app. cbn [map concat]. rewrite app_nil_r. auto. Qed.
Lemma partLabs_S zf n : partLabs zf (S n) = partLabs zf n ++ repeat (Z.of_nat n) (zf n).
Proof. unfold partLabs. rewrite seq_S, map_app, concat_app. cbn [map concat]. rewrite app_nil_r. auto. Qed.
Lemma partRows_in kf zf n i : n <= N -> In i (partRows kf zf n) -> i < length D.
Proof.
  intros Hn H. unfold partRows in H. rewrite <- flat_map_concat_map in H. apply in_flat_map in H as (j & Hj & Hi). apply in_seq in Hj. apply sel_in in Hi; [|lia]. apply cls_in in Hi. lia.
Qed.
Lemma partRows_len kf zf n : n <= N -> (forall j, j < N -> kf j + zf j <= length (nth j Rs [])) -> length (partRows kf zf n) = length (partLabs zf n).
Proof.
  intros Hn H. induction n as [|n IH]; auto. rewrite partRows_S, partLabs_S, !app_length, IH, repeat_length, sel_len by (try apply H; lia). auto.
Qed.

Lemma takePart_ok kf zf is : inD is -> (forall j, j < N -> kf j + zf j <= length (nth j Rs [])) ->
  takePart ord D (map (cls L) (seq 0 N)) Rs (map (fun j => Z.of_nat (zf j)) (seq 0 N)) (hdup ord h (picked D is)) (map kf (seq 0 N)) =
  Ok (hdup ord h (picked D (is ++ partRows kf zf N)), seq (nxt h + length is) (length (partRows kf zf N)), partLabs zf N, map (fun j => kf j + zf j) (seq 0 N)).
Proof.
  intros His Hb. unfold takePart.
  set (I := fun pre : list Z => let n := length pre in
    (hdup ord h (picked D (is ++ partRows kf zf n)), seq (nxt h + length is) (length (partRows kf zf n)), partLabs zf n, map (fun j => if Nat.ltb j n then kf j + zf j else kf j) (seq 0 N))).
  assert (E0 : (hdup ord h (picked D is), @nil nat, @nil Z, map kf (seq 0 N)) = I []) by (unfold I; cbn [length partRows partLabs seq map concat]; rewrite app_nil_r; auto).
  rewrite E0. etransitivity; [apply (foldi_pre _ I)|].
  - intros pre z post E. set (n := length pre). assert (Hn : n < N).
    { assert (Hx : length (map (fun j => Z.of_nat (zf j)) (seq 0 N)) = length (pre ++ z :: post)) by (rewrite E; auto). rewrite map_length, seq_length, app_length in Hx. simpl in Hx. unfold n. lia. }
    assert (Ez : z = Z.of_nat (zf n)).
    { pose proof (nth_error_map_seq (fun j => Z.of_nat (zf j)) n N Hn) as Hx. rewrite E in Hx. unfold n in Hx. rewrite nth_error_app2, Nat.sub_diag in Hx by auto. simpl in Hx. injection Hx as ->. auto. }
    unfold I. cbv zeta. fold n. rewrite (idx_ok _ _ _ (nth_error_map_seq (fun j => if Nat.ltb j n then kf j + zf j else kf j) n N Hn)). cbn [bind]. rewrite Nat.ltb_irrefl.
    assert (ER : nth_error Rs n = Some (nth n Rs [])) by (apply nth_error_nth'; lia). rewrite (idx_ok _ _ _ ER). cbn [bind].
    rewrite (idx_ok _ _ _ (nth_error_map_seq (cls L) n N Hn)). cbn [bind]. rewrite Ez, Nat2Z.id.
    rewrite (takeClass_ok n (zf n) Hn) by (try apply Hb; auto; intros i Hi; apply in_app_or in Hi as [Hi|Hi]; auto; apply (partRows_in kf zf n); auto; lia).
    cbn [bind]. replace (length (pre ++ [Z.of_nat (zf n)])) with (S n) by (rewrite app_length; simpl; unfold n; lia). rewrite partRows_S, partLabs_S, <- app_assoc.
    rewrite !app_length, sel_len by (apply Hb; auto). rewrite seq_app, Nat.add_assoc. do 2 f_equal.
    apply set_nth_map_seq; auto; [rewrite (proj2 (Nat.ltb_lt n (S n))) by lia; auto|].
    intros b Hne. destruct (Nat.ltb_spec b (S n)), (Nat.ltb_spec b n); auto; lia.
  - unfold I. cbv zeta. rewrite map_length, seq_length. do 2 f_equal. apply map_ext_in. intros j Hj. apply in_seq in Hj. rewrite (proj2 (Nat.ltb_lt j N)) by lia. auto.
Qed.

(** All parts. *)
Variable zf : R -> nat -> nat.
Definition ksum (ps : list R) (j : nat) : nat := list_sum (map (fun p => zf p j) ps).
Fixpoint prows (ps : list R) (kf : nat -> nat) : list (list nat) :=
  match ps with [] => [] | p :: t => partRows kf (zf p) N :: prows t (fun j => kf j + zf p j) end.
Lemma ksum_snoc ps p j : ksum (ps ++ [p]) j = ksum ps j + zf p j.
Proof. unfold ksum. rewrite map_app, list_sum_app. simpl. lia. Qed.
Lemma partRows_ext kf kf' z n : (forall j, kf j = kf' j) -> partRows kf z n = partRows kf' z n.
Proof. intros H. unfold partRows. f_equal. apply map_ext. intros j. rewrite H. auto. Qed.
Lemma prows_snoc ps p : forall kf, prows (ps ++ [p]) kf = prows ps kf ++ [partRows (fun j => kf j + ksum ps j) (zf p) N].
Proof.
  induction ps as [|q ps IH]; intros kf; simpl.
  - f_equal. apply partRows_ext. intros j. unfold ksum. simpl. lia.
  - f_equal. rewrite IH. do 2 f_equal. apply partRows_ext. intros j. unfold ksum. simpl. lia.
Qed.
Lemma prows_in ps : forall kf, inD (concat (prows ps kf)).
Proof.
  induction ps as [|p ps IH]; intros kf i Hi; simpl in Hi; [destruct Hi|]. apply in_app_or in Hi as [Hi|Hi]; [apply (partRows_in kf (zf p) N i); auto|apply (IH _ i Hi)].
Qed.

Lemma prows_perm ps : forall kf, Permutation (concat (prows ps kf)) (concat (map (fun j => sel (kf j) (ksum ps j) j) (seq 0 N))).
Proof.
  induction ps as [|p ps IH]; intros kf; simpl.
  - clear. induction (seq 0 N); simpl; auto.
  - rewrite IH. unfold partRows. rewrite <- concat_map_app.
    assert (E : map (fun j => sel (kf j) (zf p j) j ++ sel (kf j + zf p j) (ksum ps j) j) (seq 0 N) = map (fun j => sel (kf j) (ksum (p :: ps) j) j) (seq 0 N)) by (apply map_ext; intros j; rewrite sel_app; auto).
    rewrite E. auto.
Qed.

Variable ps : list R.
Hypothesis Hall : forall j, j < N -> ksum ps j = length (cls L j).

Lemma ksum_le pre p post j : ps = pre ++ p :: post -> ksum pre j + zf p j <= ksum ps j.
Proof. intros ->. unfold ksum. rewrite map_app, list_sum_app. simpl. lia. Qed.
Lemma Rs_len j : j < N -> length (nth j Rs []) = length (cls L j).
Proof. intros H. rewrite (Permutation_length (HR j H)), seq_length. auto. Qed.

Definition zsizes (p : R) : list Z := map (fun j => Z.of_nat (zf p j)) (seq 0 N).
Lemma zsizes_sum p : fold_left Z.add (zsizes p) 0%Z = Z.of_nat (length (partLabs (zf p) N)).
Proof.
  unfold zsizes. clear. induction N as [|n IH]; auto. rewrite seq_S, map_app, fold_left_app, IH, partLabs_S, app_length, repeat_length. simpl. lia.
Qed.

Lemma prows_0 : Permutation (concat (prows ps (fun _ => 0))) (concat (map (cls L) (seq 0 N))).
Proof.
  rewrite prows_perm. assert (E : forall l, (forall j, In j l -> j < N) -> Permutation (concat (map (fun j => sel 0 (ksum ps j) j) l)) (concat (map (cls L) l))).
  { induction l as [|j l IH]; intros Hl; simpl; auto. apply Permutation_app; [|apply IH; intros; apply Hl; right; auto].
    pose proof (Hl j (or_introl eq_refl)) as Hj. unfold sel. rewrite Hall, <- Rs_len by auto. simpl. rewrite firstn_all. rewrite (HR j Hj). rewrite map_nth_seq'. auto. }
  apply E. intros j Hj. apply in_seq in Hj. lia.
Qed.

Lemma parts_loop :
  foldr_ (fun (st : heap * list (list nat) * list (list Z) * list nat) Si =>
         let '(h, M, U, K) := st in
         if (fold_left Z.add Si 0 <? 0)%Z then Panic else
         bind (takePart ord D (map (cls L) (seq 0 N)) Rs Si h K) (fun t =>
         let '(h', out, lab, K') := t in
         if (fold_left Z.add Si 0 <? Z.of_nat (length out))%Z then Panic else Ok (h', M ++ [out], U ++ [lab], K'))) (map zsizes ps) (h, [], [], repeat 0 N)
  = Ok (hdup ord h (picked D (concat (prows ps (fun _ => 0)))), chunks (map (@length nat) (prows ps (fun _ => 0))) (nxt h), map (fun p => partLabs (zf p) N) ps, map (ksum ps) (seq 0 N)).
Proof.
  rewrite foldr_map.
  set (I := fun pre : list R => (hdup ord h (picked D (concat (prows pre (fun _ => 0)))), chunks (map (@length nat) (prows pre (fun _ => 0))) (nxt h), map (fun p => partLabs (zf p) N) pre, map (ksum pre) (seq 0 N))).
  assert (E0 : (h, @nil (list nat), @nil (list Z), repeat 0 N) = I []) by (unfold I; cbn [prows concat map chunks]; rewrite <- (map_const_repeat 0 N 0); auto).
  rewrite E0. apply (foldr_pre _ I). intros pre p post E. unfold I. rewrite zsizes_sum.
  destruct (Z.ltb_spec (Z.of_nat (length (partLabs (zf p) N))) 0); [lia|].
  assert (Hk : forall j, j < N -> ksum pre j + zf p j <= length (nth j Rs [])) by (intros j Hj; rewrite Rs_len, <- Hall by auto; apply (ksum_le pre p post); auto).
  unfold zsizes. rewrite (takePart_ok (ksum pre) (zf p)) by (auto; apply prows_in). cbn [bind]. rewrite seq_length, partRows_len by (auto). rewrite Z.ltb_irrefl.
  rewrite prows_snoc, concat_app. cbn [concat]. rewrite app_nil_r, map_app. cbn [map]. rewrite chunks_snoc, map_app. cbn [map].
  assert (Ep : partRows (fun j => 0 + ksum pre j) (zf p) N = partRows (ksum pre) (zf p) N) by (apply partRows_ext; auto). rewrite Ep.
  assert (El : length (concat (prows pre (fun _ => 0))) = list_sum (map (@length nat) (prows pre (fun _ => 0)))).
  { generalize (prows pre (fun _ => 0)). induction l as [|a l IH]; simpl; auto. rewrite app_length, IH. auto. }
  rewrite El, partRows_len by auto. do 2 f_equal. apply map_ext. intros j. rewrite ksum_snoc. auto.
Qed.

Lemma leftovers {T} (st : T) (f : nat -> T -> list nat -> res T) :
  (forall i Ri, nth_error (map (ksum ps) (seq 0 N)) i = Some (length Ri) -> f i st Ri = Ok st) -> foldi f Rs st = Ok st.
Proof.
  intros Hf. apply (foldi_pre _ (fun _ => st)). intros pre Ri post E. assert (Hn : length pre < N) by (rewrite <- HRl, E, app_length; simpl; lia).
  assert (Er : nth (length pre) Rs [] = Ri) by (rewrite E, app_nth2, Nat.sub_diag by auto; auto).
  apply Hf. rewrite (nth_error_map_seq (ksum ps) _ N Hn). rewrite Hall, <- Rs_len, Er by auto. auto.
Qed.

Lemma labs_of kf p n : n <= N -> (forall j, j < N -> kf j + zf p j <= length (nth j Rs [])) -> labels_of L (partRows kf (zf p) n) (partLabs (zf p) n).
Proof.
  intros Hn Hk. induction n as [|n IH]; [constructor|]. rewrite partRows_S, partLabs_S. apply Forall2_app; [apply IH; lia|].
  assert (Hin : forall i, In i (sel (kf n) (zf p n) n) -> nth_error L i = Some (Z.of_nat n)) by (intros i Hi; apply sel_in in Hi; [|lia]; apply cls_in in Hi; tauto).
  assert (Hl : length (sel (kf n) (zf p n) n) = zf p n) by (apply sel_len, Hk; lia). rewrite <- Hl at 2. clear -Hin.
  induction (sel (kf n) (zf p n) n) as [|i l IH]; simpl; constructor; [apply Hin; left; auto|apply IH; intros; apply Hin; right; auto].
Qed.
Lemma all_labs : Forall2 (labels_of L) (prows ps (fun _ => 0)) (map (fun p => partLabs (zf p) N) ps).
Proof.
  assert (Gn : forall post pre, ps = pre ++ post -> Forall2 (labels_of L) (prows post (ksum pre)) (map (fun p => partLabs (zf p) N) post)).
  { induction post as [|p post IH]; intros pre E; simpl; constructor.
    - apply labs_of; auto. intros j Hj. rewrite Rs_len, <- Hall by auto. apply (ksum_le pre p post); auto.
    - specialize (IH (pre ++ [p]) ltac:(rewrite <- app_assoc; auto)).
      assert (Ex : forall l k k', (forall j, k j = k' j) -> prows l k = prows l k').
      { induction l as [|a l IHl]; intros k k' H; simpl; auto. f_equal; [apply partRows_ext; auto|apply IHl; intros j; rewrite H; auto]. }
      rewrite (Ex _ _ (ksum (pre ++ [p]))); auto. intros j. rewrite ksum_snoc. auto. }
  apply (Gn ps []). auto.
Qed.
Lemma count_partLabs z j n : count_occ Z.eq_dec (partLabs z n) (Z.of_nat j) = if Nat.ltb j n then z j else 0.
Proof using.
  clear -z j n.
  induction n as [|n IH]; [auto|]. rewrite partLabs_S, count_occ_app, IH. destruct (Nat.eq_dec j n) as [->|Hne].
  - rewrite Nat.ltb_irrefl. rewrite count_occ_repeat_eq by auto. rewrite (proj2 (Nat.ltb_lt n (S n))) by lia. auto.
  - rewrite count_occ_repeat_neq by lia. destruct (Nat.ltb_spec j n), (Nat.ltb_spec j (S n)); lia.
Qed.
End B.

Section T.
Variable fround : F XR -> Z.
Hypothesis Hround : forall r, fround (Fin r) = go_round r.
Variable ffloor : F XR -> F XR.
Hypothesis Hfloor : forall r, ffloor (Fin r) = Fin (IZR (Int_part r)).
Variable fabs : F XR -> F XR.

Lemma furthest_ok n (M : list (list nat)) (p : list (F XR)) : length M = length p -> exists d, @furthest XR fabs n M p = Ok d.
Proof.
  intros HL. unfold furthest.
  assert (Gn : forall (M : list (list nat)) k st, k + length M <= length p -> exists r, foldi_from k (fun i (st : F XR * nat) (Mi : list nat) =>
                bind (idx p i) (fun pi =>
                let u := @fdiv XR (@fz XR (Z.of_nat n)) (@fz XR (Z.of_nat (length Mi))) in
                let du := fabs (@fsub XR u pi) in
                Ok (if @fgt XR du (fst st) then (du, i) else st))) M st = Ok r).
  { clear. induction M as [|m M IH]; intros k st Hk; cbn [foldi_from length] in *; [eauto|].
    destruct (nth_error p k) as [x|] eqn:E; [|apply nth_error_None in E; lia]. rewrite (idx_ok _ _ _ E). cbn [bind]. apply IH. lia. }
  destruct (Gn M 0 (@fz XR 0, 0) ltac:(lia)) as (r & E). unfold foldi. cbv zeta in *. rewrite E. cbn [bind]. eauto.
Qed.

Lemma byLabels_ok ord h D L c p Rs : visits_all ord -> good_heap h -> rows_exist h D -> length L = length D -> (0 <= c)%Z ->
  (forall l, In l L -> 0 <= l < c)%Z -> length Rs = Z.to_nat c ->
  (forall j, j < Z.to_nat c -> Permutation (nth j Rs []) (seq 0 (length (where_label (Z.eqb (Z.of_nat j)) L)))) ->
  (forall x, In x p -> (0 <= x)%R) ->
  (forall j, j < Z.to_nat c -> fold_right Z.add 0%Z (map (fun x => Int_part (INR (length (where_label (Z.eqb (Z.of_nat j)) L)) * x)) p) = Z.of_nat (length (where_label (Z.eqb (Z.of_nat j)) L))) ->
  exists h' idxs M U, @partitionByLabels ord XR fround ffloor fabs h D L c (map Fin p) Rs = Ok (h', M, U) /\
    divided h D h' idxs M /\ Forall2 (labels_of L) idxs U /\ exactly_once (length D) idxs /\ length M = length p /\ class_shares L (Z.to_nat c) p U.
Proof.
  intros Hord G HD HL Hc Hl HRl HR Hp Hsum. set (N := Z.to_nat c) in *.
  set (zz := fun x j => Int_part (INR (length (cls L j)) * x)). set (zf := fun x j => Z.to_nat (zz x j)).
  assert (Hz : forall x j, In x p -> (0 <= zz x j)%Z).
  { intros x j Hx. unfold zz. pose proof (Int_part_lt (INR (length (cls L j)) * x)) as [_ H]. pose proof (Rmult_le_pos _ _ (pos_INR (length (cls L j))) (Hp x Hx)).
    assert (-1 < IZR (Int_part (INR (length (cls L j)) * x)))%R by lra. apply (lt_IZR (-1)) in H1. lia. }
  assert (Hall : forall j, j < N -> ksum zf p j = length (cls L j)).
  { intros j Hj. apply Nat2Z.inj. change (Z.of_nat (length (cls L j))) with (Z.of_nat (length (where_label (Z.eqb (Z.of_nat j)) L))). rewrite <- (Hsum j Hj). unfold ksum, zf.
    assert (Gn : forall l, (forall x, In x l -> In x p) -> Z.of_nat (list_sum (map (fun x => Z.to_nat (zz x j)) l)) = fold_right Z.add 0%Z (map (fun x => zz x j) l)).
    { induction l as [|x l IH]; intros Hx; simpl; auto. rewrite Nat2Z.inj_add, IH by (intros; apply Hx; right; auto). rewrite Z2Nat.id by (apply Hz, Hx; left; auto). auto. }
    apply Gn. auto. }
  assert (Hbc : byClass (length D) L c = Ok (map (cls L) (seq 0 N))) by (rewrite <- HL; apply byClass_ok; auto).
  set (idxs := prows L N Rs zf p (fun _ => 0)).
  assert (HP : Permutation (concat idxs) (seq 0 (length D))).
  { unfold idxs. rewrite (prows_0 D L HL N Rs HRl HR zf p Hall), <- HL. apply cls_perm. unfold N. rewrite Z2Nat.id by auto. auto. }
  assert (Hin : inD D (concat idxs)) by (intros i Hi; apply (Permutation_in _ HP), in_seq in Hi; lia).
  set (M := chunks (map (@length nat) idxs) (nxt h)).
  assert (HM : concat M = seq (nxt h) (length (concat idxs))).
  { unfold M. rewrite chunks_concat. f_equal. clear. induction idxs as [|a l IH]; simpl; auto. rewrite app_length, IH. auto. }
  assert (HMl : length M = length p).
  { unfold M. rewrite <- (map_length (@length nat)), chunks_length, map_length. unfold idxs. generalize (fun _ : nat => 0). clear. induction p as [|x p IH]; intros k; simpl; auto. }
  destruct (furthest_ok (length D) M (map Fin p) ltac:(rewrite map_length; auto)) as (d & Ed).
  exists (hdup ord h (picked D (concat idxs))), idxs, M, (map (fun x => partLabs (zf x) N) p).
  split; [|split; [|split; [|split; [|split]]]].
  - unfold partitionByLabels. rewrite Hbc. cbn [bind].
    assert (Es : @partSizes XR fround ffloor N (map (@length nat) (map (cls L) (seq 0 N))) (map Fin p) = Ok (map (zsizes N zf) p)).
    { unfold partSizes, mapi. rewrite mapi_pure. f_equal. rewrite map_map. apply map_ext_in. intros x Hx.
      rewrite !map_map. etransitivity; [|apply (cascade_int fround Hround)]. f_equal. unfold zsizes. rewrite map_map. apply map_ext. intros j. unfold zf. rewrite Z2Nat.id by (apply Hz, Hx; left; auto).
      unfold zz. rewrite INR_IZR_INZ. apply Hfloor. }
    fold N. rewrite Es. cbn [bind].
    rewrite (parts_loop ord Hord h G D HD L HL N Rs HRl HR zf p Hall). cbn [bind]. fold idxs M. rewrite Ed. cbn [bind].
    rewrite (leftovers D L HL N Rs HRl HR zf p Hall); auto. intros i Ri Hi. rewrite (idx_ok _ _ _ Hi). cbn [bind]. rewrite skipn_all. auto.
  - destruct (picked_new ord Hord h G D HD (concat idxs) Hin) as [N1 N2]. split; auto. split; [rewrite HM; auto|].
    pose proof (picked_copies ord Hord h G D HD (concat idxs) Hin) as HCp. rewrite <- HM in HCp.
    assert (Hlen : map (@length nat) M = map (@length nat) idxs) by apply chunks_length. revert HCp Hlen. generalize (hdup ord h (picked D (concat idxs))). clear. clearbody M idxs. intros h' HCp Hlen.
    unfold copies in *. revert M HCp Hlen. induction idxs as [|a l IH]; intros [|m M] HCp Hlen; simpl in *; try discriminate; constructor.
    + injection Hlen as E1 E2. apply Forall2_app_inv_l in HCp as (l1 & l2 & F1 & F2 & E). assert (length l1 = length m) by (apply Forall2_len in F1; lia).
      assert (El : l1 = m) by (clear -E H; revert m E H; induction l1 as [|x l1 IH]; intros [|y m] E H; simpl in *; try discriminate; auto; injection E as -> E; f_equal; apply IH; auto).
      subst. auto.
    + injection Hlen as E1 E2. apply Forall2_app_inv_l in HCp as (l1 & l2 & F1 & F2 & E). assert (length l1 = length m) by (apply Forall2_len in F1; lia).
      assert (El : l1 = m) by (clear -E H; revert m E H; induction l1 as [|x l1 IH]; intros [|y m] E H; simpl in *; try discriminate; auto; injection E as -> E; f_equal; apply IH; auto).
      subst. apply app_inv_head in E. subst. apply IH; auto.
  - apply (all_labs D L HL N Rs HRl HR zf p Hall).
  - exact HP.
  - exact HMl.
  - intros i pi Ui j Hi HU Hj. rewrite nth_error_map, Hi in HU. simpl in HU. injection HU as <-. rewrite count_partLabs, (proj2 (Nat.ltb_lt j N)) by auto. unfold zf. rewrite Z2Nat.id by (apply Hz; eapply nth_error_In; eauto). auto.
Qed.
End T.
