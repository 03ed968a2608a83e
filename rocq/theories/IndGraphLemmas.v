(** Proofs about the two independence graph constructors. *)
From Coq Require Import Relations.
From Verif Require Import Base Res Arith UnionFind UnionSpec UnionLemmas Indep IndepSpec IndepLemmas.

Lemma NoDup_concat_map {A B} (g : A -> list B) l : NoDup l -> (forall x, In x l -> NoDup (g x)) ->
  (forall x y b, In x l -> In y l -> In b (g x) -> In b (g y) -> x = y) -> NoDup (concat (map g l)).
Proof.
  induction l as [|x l IH]; intros HN H1 H2; simpl; [constructor|]. inversion HN as [|? ? Hx Hl]; subst.
  assert (IHl : NoDup (concat (map g l))) by (apply IH; auto; intros; [apply H1; right; auto|eapply H2; eauto; right; auto]).
  pose proof (H1 x (or_introl eq_refl)) as Hg.
  assert (Hd : forall b, In b (g x) -> ~ In b (concat (map g l))).
  { intros b Hb Hc. rewrite <- flat_map_concat_map in Hc. apply in_flat_map in Hc as (y & Hy & Hby).
    assert (x = y) by (apply (H2 x y b); auto; [left; auto|right; auto]). subst. auto. }
  revert Hg Hd. generalize (g x). intros L. induction L as [|b L IHL]; intros Hg Hd; simpl; auto.
  inversion Hg; subst. constructor; [rewrite in_app_iff; intros [?|?]; [auto|apply (Hd b); auto; left; auto]|].
  apply IHL; auto. intros; apply Hd; right; auto.
Qed.

Section G.
Context {A : arith}.
Variable chi2 : F A -> Z -> F A.
Variable data : list vardata.
Variable pval : F A.
Variable fuel : nat.
Let n := length data.
Local Notation ids := (ids data).
Local Notation pairTest := (pairTest chi2 data pval).

Definition D (i j : nat) : Prop := i < j < n /\ pairTest i j = Ok false.

Lemma ids_len : length ids = n.
Proof. unfold Indep.ids. apply map_length. Qed.

Lemma makeSets_ok : INV 0 (makeSets data) (fun _ _ => False) /\ unext (makeSets data) = n /\
  forall i v, nth_error ids i = Some v -> vid (makeSets data) i = v.
Proof.
  unfold makeSets. rewrite <- ids_len.
  assert (G : forall l s, INV 0 s (fun _ _ => False) ->
    INV 0 (fold_left (fun s v => fst (makeSet s v)) l s) (fun _ _ => False) /\
    unext (fold_left (fun s v => fst (makeSet s v)) l s) = unext s + length l /\
    (forall i, i < unext s -> vid (fold_left (fun s v => fst (makeSet s v)) l s) i = vid s i) /\
    forall i v, nth_error l i = Some v -> vid (fold_left (fun s v => fst (makeSet s v)) l s) (unext s + i) = v).
  { induction l as [|v l IH]; intros s HI; simpl.
    - split; auto. split; auto. split; auto. intros [|i]; discriminate.
    - destruct (IH (fst (makeSet s v)) (INV_make _ _ _ _ HI)) as (H1 & H2 & H3 & H4). unfold makeSet in *. cbn [fst unext vid] in *.
      split; auto. split; [lia|]. split.
      + intros i Hi. rewrite H3 by lia. apply upd_diff. lia.
      + intros [|i] w Hw; cbn [nth_error] in Hw.
        * injection Hw as <-. rewrite Nat.add_0_r, H3 by lia. apply upd_same.
        * replace (unext s + S i) with (S (unext s) + i) by lia. auto. }
  destruct (G ids newHeap INV_new) as (H1 & H2 & _ & H4). split; auto.
Qed.

Lemma kset_ok k s E : INV k s E -> unext s = n -> (forall i v, nth_error ids i = Some v -> vid s i = v) -> k < fuel ->
  kset data fuel s = Ok (map (fun r => map (vid s) (mlist fuel s r)) (filter (fun i => Nat.eqb i (pa s i)) (seq 0 n))).
Proof.
  intros HI Hn Hv Hk. unfold kset. rewrite range0. fold n. pose proof (i_wf _ _ _ HI) as W.
  assert (G : forall l acc, (forall i, In i l -> i < n) ->
    foldr_ (fun k i => if Nat.eqb i (pa s i) then l <- ufVarids fuel s i; Ok (k ++ [l]) else Ok k) l acc =
    Ok (acc ++ map (fun r => map (vid s) (mlist fuel s r)) (filter (fun i => Nat.eqb i (pa s i)) l))).
  { induction l as [|i l IH]; intros acc Hl; cbn [foldr_ filter]; [rewrite app_nil_r; auto|].
    destruct (Nat.eqb i (pa s i)) eqn:Er; cbn [bind map].
    - assert (Hi : i < unext s) by (rewrite Hn; apply Hl; left; auto). pose proof (w_k _ _ W i Hi).
      rewrite (varids_mlist k s W) by (auto; lia). cbn [bind]. rewrite IH by (intros; apply Hl; right; auto). rewrite <- app_assoc. auto.
    - apply IH. intros; apply Hl; right; auto. }
  apply (G (seq 0 n) []). intros i Hi. apply in_seq in Hi. lia.
Qed.

Lemma rst_ids (dep : Z -> Z -> Prop) (E : nat -> nat -> Prop) :
  NoDup ids ->
  (forall i j, E i j -> exists u v, nth_error ids i = Some u /\ nth_error ids j = Some v /\ clos_refl_sym_trans Z dep u v) ->
  (forall u v, dep u v -> exists i j, nth_error ids i = Some u /\ nth_error ids j = Some v /\ rst E i j) ->
  forall i j u v, nth_error ids i = Some u -> nth_error ids j = Some v -> (rst E i j <-> clos_refl_sym_trans Z dep u v).
Proof.
  intros HN H1 H2 i j u v Hi Hj. split.
  - intros H. assert (G : forall i j, rst E i j -> i = j \/ exists u v, nth_error ids i = Some u /\ nth_error ids j = Some v /\ clos_refl_sym_trans Z dep u v).
    { induction 1 as [a b H'|a|a b _ IH|a b c _ IH1 _ IH2]; auto.
      - destruct IH as [->|(w & z & ? & ? & ?)]; auto. right. exists z, w. repeat split; auto. apply rst_sym; auto.
      - destruct IH1 as [->|(w & z & Ha & Hb & H3)]; auto. destruct IH2 as [->|(w' & z' & Hb' & Hc & H4)]; [right; eauto|].
        right. exists w, z'. repeat split; auto. eapply rst_trans; [exact H3|]. congruence. }
    destruct (G i j H) as [->|(w & z & Ha & Hb & H3)]; [rewrite Hi in Hj; injection Hj as ->; apply rst_refl|].
    rewrite Hi in Ha. rewrite Hj in Hb. injection Ha as ->. injection Hb as ->. auto.
  - intros H. assert (Inj : forall i j w, nth_error ids i = Some w -> nth_error ids j = Some w -> i = j).
    { intros a b w Ha Hb. apply (proj1 (NoDup_nth_error ids) HN); [apply nth_error_Some; congruence|congruence]. }
    assert (G : forall u v, clos_refl_sym_trans Z dep u v -> u = v \/ exists i j, nth_error ids i = Some u /\ nth_error ids j = Some v /\ rst E i j).
    { induction 1 as [a b H'|a|a b _ IH|a b c _ IH1 _ IH2]; auto.
      - destruct IH as [->|(x & y & ? & ? & ?)]; auto. right. exists y, x. repeat split; auto. apply rst_sym; auto.
      - destruct IH1 as [->|(x & y & Ha & Hb & H3)]; auto. destruct IH2 as [->|(x' & y' & Hb' & Hc & H4)]; [right; eauto|].
        right. exists x, y'. repeat split; auto. eapply rst_trans; [exact H3|]. rewrite (Inj y x' b Hb Hb'). auto. }
    destruct (G u v H) as [->|(x & y & Ha & Hb & H3)]; [rewrite (Inj i j v Hi Hj); apply rst_refl|].
    rewrite (Inj i x u Hi Ha), (Inj j y v Hj Hb). auto.
Qed.

Lemma groups_components k s E (dep : Z -> Z -> Prop) : INV k s E -> unext s = n -> (forall i v, nth_error ids i = Some v -> vid s i = v) -> k < fuel ->
  NoDup ids ->
  (forall i j, E i j -> exists u v, nth_error ids i = Some u /\ nth_error ids j = Some v /\ clos_refl_sym_trans Z dep u v) ->
  (forall u v, dep u v -> exists i j, nth_error ids i = Some u /\ nth_error ids j = Some v /\ rst E i j) ->
  components dep ids (map (fun r => map (vid s) (mlist fuel s r)) (filter (fun i => Nat.eqb i (pa s i)) (seq 0 n))).
Proof.
  intros HI Hn Hv Hk HN HE1 HE2. pose proof (i_wf _ _ _ HI) as W. set (roots := filter _ _).
  assert (Hroots : forall r, In r roots <-> r < unext s /\ pa s r = r).
  { intros r. unfold roots. rewrite filter_In, in_seq, Nat.eqb_eq, Hn. split; intros [? ?]; split; auto; lia. }
  assert (Hmem : forall r, In r roots -> NoDup (mlist fuel s r) /\ forall y, In y (mlist fuel s r) <-> y < unext s /\ leads s y r).
  { intros r Hr. apply Hroots in Hr as [? ?]. apply (i_mem _ _ _ HI); auto. }
  split; [|split].
  - rewrite <- (map_map (mlist fuel s) (map (vid s))), <- concat_map.
    assert (HP : Permutation (concat (map (mlist fuel s) roots)) (seq 0 n)).
    { apply NoDup_Permutation; [|apply seq_NoDup|].
      - apply NoDup_concat_map; [apply NoDup_filter, seq_NoDup|intros; apply Hmem; auto|].
        intros x y b Hx Hy Hbx Hby. apply (Hmem x Hx) in Hbx as [_ L1]. apply (Hmem y Hy) in Hby as [_ L2]. apply (leads_fun s b); auto.
      - intros y. rewrite <- flat_map_concat_map, in_flat_map, in_seq. split.
        + intros (r & Hr & Hy). apply Hmem in Hy; auto. lia.
        + intros Hy. assert (Hy' : y < unext s) by lia. destruct (leads_total k s W y Hy') as (r & L & Hr & _).
          exists r. assert (In r roots) by (apply Hroots; split; auto; eapply leads_isroot; eauto). split; auto. apply Hmem; auto. }
    rewrite (Permutation_map (vid s) HP). replace (map (vid s) (seq 0 n)) with ids; auto.
    apply nth_error_ext. intros i. destruct (nth_error ids i) as [v|] eqn:Ei.
    + assert (i < n) by (rewrite <- ids_len; apply nth_error_Some; congruence).
      rewrite (map_nth_error (vid s) i (seq 0 n) (d := i)); [f_equal; symmetry; auto|].
      rewrite (nth_error_nth' _ 0) by (rewrite seq_length; auto). rewrite seq_nth; auto.
    + symmetry. apply nth_error_None. rewrite map_length, seq_length, <- ids_len. apply nth_error_None. auto.
  - intros g Hg. apply in_map_iff in Hg as (r & <- & Hr). destruct fuel; [lia|]. discriminate.
  - intros u v Hu Hw. apply In_nth_error in Hu as [i Hi]. apply In_nth_error in Hw as [j Hj].
    rewrite <- (rst_ids dep E HN HE1 HE2 i j u v Hi Hj).
    assert (Li : i < unext s) by (rewrite Hn, <- ids_len; apply nth_error_Some; congruence).
    assert (Lj : j < unext s) by (rewrite Hn, <- ids_len; apply nth_error_Some; congruence).
    assert (Inj : forall a b w, nth_error ids a = Some w -> b < unext s -> vid s b = w -> a = b).
    { intros a b w Ha Hb Hw. apply (proj1 (NoDup_nth_error ids) HN); [apply nth_error_Some; congruence|].
      destruct (nth_error ids b) as [z|] eqn:Eb; [rewrite (Hv b z Eb) in Hw; congruence|].
      apply nth_error_None in Eb. rewrite ids_len in Eb. lia. }
    split.
    + intros (g & Hg & Hgu & Hgv). apply in_map_iff in Hg as (r & <- & Hr).
      apply in_map_iff in Hgu as (a & Ea & Ha). apply in_map_iff in Hgv as (b & Eb & Hb).
      apply Hmem in Ha as [Ha La]; auto. apply Hmem in Hb as [Hb Lb]; auto.
      rewrite (Inj i a u), (Inj j b v) by auto. apply (i_rel _ _ _ HI a b r r); auto.
    + intros H. destruct (leads_total k s W i Li) as (r & L & Hr & _). destruct (leads_total k s W j Lj) as (r' & L' & _).
      assert (r = r') by (apply (i_rel _ _ _ HI i j r r'); auto). subst r'.
      exists (map (vid s) (mlist fuel s r)). assert (HR : In r roots) by (apply Hroots; split; auto; eapply leads_isroot; eauto).
      split; [apply (in_map (fun r => map (vid s) (mlist fuel s r))); auto|].
      split; apply in_map_iff; [exists i|exists j]; (split; [auto|apply Hmem; auto]).
Qed.

(** The pairs of the nested loops. *)
Lemma pairs_in i j : In (i, j) (pairs n) <-> i < j < n.
Proof.
  unfold pairs. rewrite in_flat_map. split.
  - intros (a & Ha & H). apply in_map_iff in H as (b & E & Hb). injection E as -> ->. unfold range in *. rewrite in_seq in *. lia.
  - intros H. exists i. unfold range. rewrite in_seq. split; [lia|]. apply in_map. rewrite in_seq. lia.
Qed.

Hypothesis Htests : forall i j, i < j < n -> exists b, pairTest i j = Ok b.
Hypothesis HN : NoDup ids.

Definition dep (u v : Z) : Prop := exists i j, nth_error ids i = Some u /\ nth_error ids j = Some v /\ D i j.

Lemma idx_ids i : i < n -> exists v, nth_error ids i = Some v /\ idx ids i = Ok v.
Proof.
  intros H. unfold idx. destruct (nth_error ids i) eqn:E; eauto. apply nth_error_None in E. rewrite ids_len in E. lia.
Qed.

(** NewUFIndepGraph. *)
Lemma ufPairs_ok : forall L a s k E, INV k s E -> unext s = n -> (forall i v, nth_error ids i = Some v -> vid s i = v) ->
  k + length L < fuel -> (forall i j, In (i, j) L -> i < j < n) ->
  exists a' s' E', foldr_ (ufPair chi2 data pval fuel) L (a, s) = Ok (a', s') /\ INV (k + length L) s' E' /\ unext s' = n /\
    (forall i v, nth_error ids i = Some v -> vid s' i = v) /\
    (forall i j, E i j -> E' i j) /\
    (forall i j, E' i j -> E i j \/ D i j) /\
    (forall i j, In (i, j) L -> D i j -> rst E' i j).
Proof.
  induction L as [|[i j] L IH]; intros a s k E HI Hn Hv Hf HL; cbn [foldr_ length] in *.
  { exists a, s, E. rewrite Nat.add_0_r. split; auto. split; auto. split; auto. split; auto. split; auto. split; auto. intros ? ? []. }
  destruct (HL i j (or_introl eq_refl)) as [Hij Hj]. pose proof (i_wf _ _ _ HI) as W.
  unfold ufPair at 1. cbn [fst snd]. destruct (idx_ids i ltac:(lia)) as (vi & _ & ->). destruct (idx_ids j ltac:(lia)) as (vj & _ & ->). cbn [bind].
  destruct (find_ok k fuel s i W ltac:(lia) ltac:(lia)) as (s1 & x & -> & W1 & S1 & La & Hx). cbn [bind fst snd].
  pose proof (INV_same _ _ _ _ HI W1 S1) as HI1. assert (E1 : unext s1 = unext s) by apply S1.
  destruct (find_ok k fuel s1 j W1 ltac:(lia) ltac:(lia)) as (s2 & y & -> & W2 & S2 & Lb & Hy). cbn [bind fst snd].
  pose proof (INV_same _ _ _ _ HI1 W2 S2) as HI2.
  assert (E2 : unext s2 = n) by (destruct S2 as (_ & _ & _ & -> & _); lia).
  assert (V2 : forall i v, nth_error ids i = Some v -> vid s2 i = v).
  { intros i' v' H'. destruct S1 as (_ & V1 & _). destruct S2 as (_ & -> & _). rewrite V1. auto. }
  assert (HL' : forall i j, In (i, j) L -> i < j < n) by (intros; apply HL; right; auto).
  destruct (Nat.eqb_spec x y) as [->|Hxy].
  - destruct (IH a s2 k E HI2 E2 V2 ltac:(lia) HL') as (a' & s' & E' & Hr & H1 & H2 & H3 & H4 & H5 & H6).
    exists a', s', E'. cbn [bind]. split; auto. split; [apply (INV_more (k + length L)); auto; lia|]. split; auto. split; auto. split; auto. split; auto.
    intros i' j' [Heq|Hin] HD; auto. injection Heq as <- <-. apply (rst_sub E); [intros; constructor; auto|].
    apply (i_rel _ _ _ HI i j y y); auto; try lia.
    destruct S1 as (_ & _ & _ & _ & _ & S1). apply S1; auto. lia.
  - destruct (Htests i j ltac:(lia)) as [b Hb]. rewrite Hb. cbn [bind]. destruct b.
    + destruct (IH a s2 k E HI2 E2 V2 ltac:(lia) HL') as (a' & s' & E' & Hr & H1 & H2 & H3 & H4 & H5 & H6).
      exists a', s', E'. cbn [bind]. split; auto. split; [apply (INV_more (k + length L)); auto; lia|]. split; auto. split; auto. split; auto. split; auto.
      intros i' j' [Heq|Hin] HD; auto. injection Heq as <- <-. destruct HD as [_ HD]. congruence.
    + destruct (union_ok k fuel s2 i j E HI2 ltac:(lia) ltac:(lia) ltac:(lia)) as (s3 & oo & z & -> & HI3 & E3 & V3). cbn [bind fst].
      destruct (IH (addEdge (addEdge a vi vj) vj vi) s3 (S k) _ HI3 ltac:(lia)) as (a' & s' & E' & Hr & H1 & H2 & H3 & H4 & H5 & H6); [rewrite V3; auto|lia|auto|].
      exists a', s', E'. split; auto. split; [replace (k + S (length L)) with (S k + length L) by lia; auto|]. split; auto. split; auto. split; [auto|]. split.
      * intros i' j' H. apply H5 in H as [[H|[-> ->]]|H]; auto. right. split; auto.
      * intros i' j' [Heq|Hin] HD; auto. injection Heq as <- <-. constructor. apply H4. auto.
Qed.

Lemma dep_E (E : nat -> nat -> Prop) : (forall i j, E i j -> D i j \/ D j i) ->
  forall i j, E i j -> exists u v, nth_error ids i = Some u /\ nth_error ids j = Some v /\ clos_refl_sym_trans Z dep u v.
Proof.
  intros H i j HE. destruct (H i j HE) as [HD|HD]; pose proof HD as [Hij _].
  - destruct (idx_ids i ltac:(lia)) as (u & Hu & _). destruct (idx_ids j ltac:(lia)) as (v & Hw & _). exists u, v. split; auto. split; auto.
    constructor. exists i, j. auto.
  - destruct (idx_ids i ltac:(lia)) as (u & Hu & _). destruct (idx_ids j ltac:(lia)) as (v & Hw & _). exists u, v. split; auto. split; auto.
    apply rst_sym. constructor. exists j, i. auto.
Qed.

Lemma uf_graph : length (pairs n) < fuel -> exists a K, newUFIndepGraph chi2 data pval fuel = Ok (a, K) /\ components dep ids K.
Proof.
  intros Hf. destruct makeSets_ok as (H1 & H2 & H3). unfold newUFIndepGraph. fold n.
  destruct (ufPairs_ok (pairs n) (adj0 data) (makeSets data) 0 _ H1 H2 H3 ltac:(lia)) as (a' & s' & E' & -> & HI & Hn & Hv & _ & H5 & H6).
  { intros i j H. apply pairs_in; auto. }
  cbn [bind fst snd]. rewrite (kset_ok _ s' E' HI) by (auto; lia). cbn [bind]. eexists _, _. split; [reflexivity|].
  apply (groups_components _ s' E' dep HI); auto.
  - apply dep_E. intros i j H. apply H5 in H as [[]|H]; auto.
  - intros u v (i & j & Hi & Hj & HD). exists i, j. split; auto. split; auto. apply H6; auto. apply pairs_in. apply HD.
Qed.

(** NewIndepGraph. *)
Definition has (a : adjlist) (v w : Z) : Prop := exists l, a v = Some l /\ In w l.
Lemma has_add a v w x y : has (addEdge a v w) x y <-> has a x y \/ (x = v /\ y = w).
Proof.
  unfold has, addEdge, updZ. destruct (Z.eqb_spec x v) as [->|Hx].
  - split.
    + intros (l & E & H). injection E as <-. apply in_app_iff in H as [H|[<-|[]]]; auto. left. destruct (a v); [eauto|destruct H].
    + intros H. eexists. split; [reflexivity|]. rewrite in_app_iff. destruct H as [(l & -> & H)|[_ ->]]; auto. right. left. auto.
  - split; [intros (l & E & H); eauto|]. intros [H|[? _]]; [auto|contradiction].
Qed.
Lemma adj0_has v w : ~ has (adj0 data) v w.
Proof.
  unfold adj0. assert (G : forall l a, (forall v w, ~ has a v w) -> forall v w, ~ has (fold_left (fun a v => updZ a v (Some [])) l a) v w).
  { induction l as [|x l IH]; intros a H; simpl; auto. apply IH. intros v' w' (L & E & Hi). unfold updZ in E.
    destruct (Z.eqb v' x); [injection E as <-; destruct Hi|]. apply (H v' w'). exists L. auto. }
  apply G. intros v' w' (L & E & _). discriminate.
Qed.

Lemma edges_ok : exists a, edges chi2 data pval = Ok a /\
  forall v w, has a v w <-> dep v w \/ dep w v.
Proof.
  unfold edges. fold n.
  assert (G : forall L a, (forall i j, In (i, j) L -> i < j < n) ->
    exists a', foldr_ (fun a (ij : nat * nat) => v1 <- idx ids (fst ij); v2 <- idx ids (snd ij);
            indep <- pairTest (fst ij) (snd ij); Ok (if indep then a else addEdge (addEdge a v1 v2) v2 v1)) L a = Ok a' /\
    forall v w, has a' v w <-> has a v w \/ exists i j, In (i, j) L /\ D i j /\
        ((nth_error ids i = Some v /\ nth_error ids j = Some w) \/ (nth_error ids i = Some w /\ nth_error ids j = Some v))).
  { induction L as [|[i j] L IH]; intros a HL; cbn [foldr_].
    - exists a. split; auto. intros v w. split; auto. intros [H|(i & j & [] & _)]; auto.
    - cbn [fst snd]. pose proof (HL i j (or_introl eq_refl)) as Hij. destruct (idx_ids i ltac:(lia)) as (u & Hu & ->). destruct (idx_ids j ltac:(lia)) as (v & Hv & ->).
      cbn [bind]. destruct (Htests i j Hij) as [b Hb]. rewrite Hb. cbn [bind].
      destruct (IH (if b then a else addEdge (addEdge a u v) v u)) as (a' & -> & H'); [intros; apply HL; right; auto|].
      exists a'. split; auto. intros x y. rewrite H'. split.
      + intros [H|(i' & j' & Hin & HD & H)]; [|right; exists i', j'; split; [right; auto|auto]].
        destruct b; auto. apply has_add in H as [H|[-> ->]].
        * apply has_add in H as [H|[-> ->]]; auto. right. exists i, j. split; [left; auto|]. split; [split; auto|]. auto.
        * right. exists i, j. split; [left; auto|]. split; [split; auto|]. auto.
      + intros [H|(i' & j' & [Heq|Hin] & HD & H)].
        * left. destruct b; auto. apply has_add. left. apply has_add. auto.
        * injection Heq as <- <-. left. destruct HD as [_ HD]. replace b with false by congruence.
          destruct H as [[H1 H2]|[H1 H2]]; apply has_add; [left; apply has_add; right|right]; split; congruence.
        * right. exists i', j'. auto. }
  destruct (G (pairs n) (adj0 data)) as (a & E & Ha). { intros; apply pairs_in; auto. }
  exists a. split; auto. intros v w. rewrite Ha. split.
  - intros [H|(i & j & _ & HD & [[? ?]|[? ?]])]; [elim (adj0_has v w H)|left; exists i, j; auto|right; exists i, j; auto].
  - intros [(i & j & ? & ? & HD)|(i & j & ? & ? & HD)]; right; exists i, j; (split; [apply pairs_in; apply HD|]; split; auto).
Qed.

Lemma rids_ok i v : nth_error ids i = Some v -> rids data v = Some i.
Proof.
  unfold rids. assert (G : forall l k r, NoDup l ->
    (forall v, ~ In v l -> snd (fold_left (fun (s : nat * (Z -> option nat)) v => (S (fst s), updZ (snd s) v (Some (fst s)))) l (k, r)) v = r v) /\
    (forall i v, nth_error l i = Some v -> snd (fold_left (fun (s : nat * (Z -> option nat)) v => (S (fst s), updZ (snd s) v (Some (fst s)))) l (k, r)) v = Some (k + i))).
  { induction l as [|x l IH]; intros k r Hl; simpl; [split; auto; intros [|?]; discriminate|].
    inversion Hl as [|? ? Hx Hl']; subst. destruct (IH (S k) (updZ r x (Some k)) Hl') as [H1 H2]. split.
    - intros w Hw. rewrite H1 by tauto. apply updZ_diff. intros ->. apply Hw; auto.
    - intros [|i'] w Hw; cbn [nth_error] in Hw.
      + injection Hw as ->. rewrite H1 by auto. rewrite updZ_same, Nat.add_0_r. auto.
      + rewrite (H2 i' w Hw). f_equal. lia. }
  intros H. apply (G ids 0 (fun _ => None) HN). auto.
Qed.

Lemma connects_ok : forall L s k E, INV k s E -> unext s = n -> (forall i v, nth_error ids i = Some v -> vid s i = v) ->
  k + length L < fuel -> (forall i v, In (i, v) L -> i < n /\ exists j, nth_error ids j = Some v) ->
  exists s' E', foldr_ (connect data fuel) L s = Ok s' /\ INV (k + length L) s' E' /\ unext s' = n /\
    (forall i v, nth_error ids i = Some v -> vid s' i = v) /\
    (forall i j, E i j -> E' i j) /\
    (forall i j, E' i j -> E i j \/ exists v, In (i, v) L /\ nth_error ids j = Some v) /\
    (forall i j v, In (i, v) L -> nth_error ids j = Some v -> rst E' i j).
Proof.
  induction L as [|[i w] L IH]; intros s k E HI Hn Hv Hf HL; cbn [foldr_ length] in *.
  { exists s, E. rewrite Nat.add_0_r. split; auto. split; auto. split; auto. split; auto. split; auto. split; auto. intros ? ? ? []. }
  destruct (HL i w (or_introl eq_refl)) as (Hi & j & Hj). pose proof (i_wf _ _ _ HI) as W.
  assert (Hjn : j < n) by (rewrite <- ids_len; apply nth_error_Some; congruence).
  assert (Hjj : forall j', nth_error ids j' = Some w -> j' = j).
  { intros j' H. pose proof (rids_ok _ _ H). pose proof (rids_ok _ _ Hj). congruence. }
  unfold connect at 1. cbn [fst snd]. rewrite (rids_ok j w Hj).
  destruct (find_ok k fuel s i W ltac:(lia) ltac:(lia)) as (s1 & x & -> & W1 & S1 & La & Hx). cbn [bind fst snd].
  pose proof (INV_same _ _ _ _ HI W1 S1) as HI1. assert (E1 : unext s1 = unext s) by apply S1.
  destruct (find_ok k fuel s1 j W1 ltac:(lia) ltac:(lia)) as (s2 & y & -> & W2 & S2 & Lb & Hy). cbn [bind fst snd].
  pose proof (INV_same _ _ _ _ HI1 W2 S2) as HI2.
  assert (E2 : unext s2 = n) by (destruct S2 as (_ & _ & _ & -> & _); lia).
  assert (V2 : forall i v, nth_error ids i = Some v -> vid s2 i = v).
  { intros i' v' H'. destruct S1 as (_ & V1 & _). destruct S2 as (_ & -> & _). rewrite V1. auto. }
  assert (HL' : forall i v, In (i, v) L -> i < n /\ exists j, nth_error ids j = Some v) by (intros; apply HL; right; auto).
  destruct (Nat.eqb_spec x y) as [->|Hxy].
  - destruct (IH s2 k E HI2 E2 V2 ltac:(lia) HL') as (s' & E' & Hr & H1 & H2 & H3 & H4 & H5 & H6).
    exists s', E'. cbn [bind]. split; auto. split; [apply (INV_more (k + length L)); auto; lia|]. split; auto. split; auto. split; auto. split.
    + intros i' j' H. apply H5 in H as [H|(v & ? & ?)]; auto. right. exists v. split; [right|]; auto.
    + intros i' j' v' [Heq|Hin] HD; [|eauto]. injection Heq as <- <-. apply (rst_sub E); [intros; constructor; auto|]. rewrite (Hjj _ HD).
      apply (i_rel _ _ _ HI i j y y); auto; try lia. destruct S1 as (_ & _ & _ & _ & _ & S1). apply S1; auto. lia.
  - destruct (union_ok k fuel s2 i j E HI2 ltac:(lia) ltac:(lia) ltac:(lia)) as (s3 & oo & z & -> & HI3 & E3 & V3). cbn [bind fst].
    destruct (IH s3 (S k) _ HI3 ltac:(lia)) as (s' & E' & Hr & H1 & H2 & H3 & H4 & H5 & H6); [rewrite V3; auto|lia|auto|].
    exists s', E'. split; auto. split; [replace (k + S (length L)) with (S k + length L) by lia; auto|]. split; auto. split; auto. split; [auto|]. split.
    + intros i' j' H. apply H5 in H as [[H|[-> ->]]|(v & ? & ?)]; auto; right; [exists w; split; [left|]; auto|exists v; split; [right|]; auto].
    + intros i' j' v' [Heq|Hin] HD; [|eauto]. injection Heq as <- <-. rewrite (Hjj _ HD). constructor. apply H4. auto.
Qed.

Definition todo (a : adjlist) : list (nat * Z) :=
  flat_map (fun iv => map (pair (fst iv)) (match a (snd iv) with Some l => l | None => [] end)) (combine (range 0 (length data)) ids).
Lemma in_combine_seq {T} (l : list T) : forall k i v, In (i, v) (combine (seq k (length l)) l) <-> k <= i /\ nth_error l (i - k) = Some v.
Proof.
  induction l as [|x l IH]; intros k i v; simpl.
  - split; [intros []|intros [_ H]; destruct (i - k); discriminate].
  - rewrite IH. split.
    + intros [E|[H1 H2]]; [injection E as <- <-; rewrite Nat.sub_diag; auto|]. split; [lia|]. replace (i - k) with (S (i - S k)) by lia. auto.
    + intros [H1 H2]. destruct (i - k) as [|d] eqn:Ed; [left; injection H2 as ->; f_equal; lia|right]. split; [lia|]. replace (i - S k) with d by lia. auto.
Qed.
Lemma todo_in a i w : In (i, w) (todo a) <-> exists v, nth_error ids i = Some v /\ has a v w.
Proof.
  unfold todo. rewrite range0, <- (ids_len : length ids = length data). rewrite in_flat_map. split.
  - intros ([j v] & Hc & H). apply in_combine_seq in Hc as [_ Hc]. rewrite Nat.sub_0_r in Hc. cbn [fst snd] in H.
    apply in_map_iff in H as (x & E & Hx). injection E as -> ->. exists v. split; auto. unfold has. destruct (a v); [eauto|destruct Hx].
  - intros (v & Hv & l & Hl & Hw). exists (i, v). split; [apply in_combine_seq; rewrite Nat.sub_0_r; split; [lia|auto]|]. cbn [fst snd]. rewrite Hl. apply in_map. auto.
Qed.

Lemma dep_ids u v : dep u v -> In u ids /\ In v ids.
Proof. intros (i & j & Hi & Hj & _). split; eapply nth_error_In; eauto. Qed.

Lemma graph_ok a : edges chi2 data pval = Ok a -> (forall v w, has a v w <-> dep v w \/ dep w v) -> length (todo a) < fuel ->
  exists K, newIndepGraph chi2 data pval fuel = Ok (a, K) /\ components dep ids K.
Proof.
  intros Ea Ha Hf. destruct makeSets_ok as (H1 & H2 & H3). unfold newIndepGraph. rewrite Ea. cbn [bind]. fold (todo a).
  destruct (connects_ok (todo a) (makeSets data) 0 _ H1 H2 H3 ltac:(lia)) as (s' & E' & -> & HI & Hn & Hv & _ & H5 & H6).
  { intros i v H. apply todo_in in H as (u & Hu & H). split; [rewrite <- ids_len; apply nth_error_Some; congruence|].
    apply In_nth_error. apply Ha in H as [H|H]; apply dep_ids in H; tauto. }
  cbn [bind]. rewrite (kset_ok _ s' E' HI) by (auto; lia). cbn [bind]. eexists. split; [reflexivity|].
  assert (Inj : forall a b w, nth_error ids a = Some w -> nth_error ids b = Some w -> a = b).
  { intros x y w Hx Hy. pose proof (rids_ok _ _ Hx). pose proof (rids_ok _ _ Hy). congruence. }
  apply (groups_components _ s' E' dep HI); auto.
  - apply dep_E. intros i j H. apply H5 in H as [[]|(v & Hin & Hj)]. apply todo_in in Hin as (u & Hu & H). apply Ha in H as [(x & y & Hx & Hy & HD)|(x & y & Hx & Hy & HD)].
    + rewrite (Inj i x u Hu Hx), (Inj j y v Hj Hy). auto.
    + rewrite (Inj i y u Hu Hy), (Inj j x v Hj Hx). auto.
  - intros u v HD. pose proof HD as (i & j & Hi & Hj & _). exists i, j. split; auto. split; auto. apply (H6 i j v); auto. apply todo_in. exists u. split; auto. apply Ha. auto.
Qed.
End G.

(** With well-formed data every test runs. *)
Lemma tests_run {A : arith} (chi2 : F A -> Z -> F A) data pval : well_formed data ->
  forall i j, i < j < length data -> exists b, pairTest chi2 data pval i j = Ok b.
Proof.
  intros (H1 & H2 & H3) i j Hij. unfold pairTest, idx.
  destruct (nth_error data i) as [d|] eqn:Ei; [|apply nth_error_None in Ei; lia].
  destruct (nth_error data j) as [e|] eqn:Ej; [|apply nth_error_None in Ej; lia]. cbn [bind].
  apply nth_error_In in Ei, Ej.
  destruct (contingency_l (vd_cat d) (vd_cat e) (vd_data d) (vd_data e)) as (m & -> & _ & _ & T1 & T2 & T3 & T4); auto.
  cbn [bind]. unfold gTest. pose proof (H3 d Ei) as Hd. pose proof (H3 e Ej) as He.
  rewrite (proj2 (Z.ltb_ge (vd_cat d) 0)), (proj2 (Z.ltb_ge (vd_cat e) 0)), andb_false_r by auto. cbn [orb].
  assert (G : exists s, gStat (A := A) (Z.to_nat (vd_cat d)) (Z.to_nat (vd_cat e)) m = Ok s); [|destruct G as [s ->]; cbn [bind]; eauto].
  set (P := Z.to_nat (vd_cat d)) in *. set (Q := Z.to_nat (vd_cat e)) in *.
  assert (Hg : forall a b v, at_ m a b v -> getM m a b = Ok v).
  { intros a b v (row & R1 & R2). unfold getM, idx. rewrite R1. cbn [bind]. rewrite R2. auto. }
  assert (Hc : forall a b, In (a, b) (cells P Q) -> a < P /\ b < Q).
  { intros a b H. unfold cells in H. apply in_flat_map in H as (x & Hx & H). apply in_map_iff in H as (y & E & Hy). injection E as -> ->.
    rewrite range0 in *. rewrite in_seq in *. lia. }
  unfold gStat.
  assert (GE : forall l acc, (forall c, In c l -> In c (cells P Q)) -> exists E, foldr_ (fun m0 c => e0 <- expected (A := A) P Q m (fst c) (snd c); Ok (m0 ++ [e0])) l acc = Ok E).
  { induction l as [|[a b] l IH]; intros acc Hl; cbn [foldr_]; [eauto|].
    destruct (Hc a b (Hl _ (or_introl eq_refl))) as [Ha Hb]. cbn [fst snd].
    assert (HX : exists x, expected (A := A) P Q m a b = Ok x).
    { unfold expected. pose proof (T3 (Z.of_nat b) ltac:(lia)) as X1. rewrite Nat2Z.id in X1. rewrite (Hg _ _ _ X1). cbn [bind].
      pose proof (T2 (Z.of_nat a) ltac:(lia)) as X2. rewrite Nat2Z.id in X2. rewrite (Hg _ _ _ X2). cbn [bind]. rewrite (Hg _ _ _ T4). cbn [bind]. eauto. }
    destruct HX as [x ->]. cbn [bind].
    apply IH. intros; apply Hl; right; auto. }
  destruct (GE (cells P Q) [] ltac:(auto)) as [E ->]. cbn [bind].
  assert (GS : forall l s, (forall c e, In (c, e) l -> In c (cells P Q)) -> exists r, foldr_ (fun s (ce : (nat * nat) * F A) =>
         let (c, e) := ce in
         if feq e (fz 0) then Ok s
         else o <- getM m (fst c) (snd c);
              if @feq A (fz o) (fz 0) then Ok s
              else Ok (fadd s (fmul (fz o) (flog (fdiv (fz o) e))))) l s = Ok r).
  { induction l as [|[[a b] x] l IH]; intros s Hl; cbn [foldr_]; [eauto|].
    destruct (Hc a b (Hl _ _ (or_introl eq_refl))) as [Ha Hb].
    pose proof (T1 (Z.of_nat a) (Z.of_nat b) ltac:(lia) ltac:(lia)) as X. rewrite !Nat2Z.id in X. cbn [fst snd]. rewrite (Hg _ _ _ X). cbn [bind].
    assert (Hl' : forall c e, In (c, e) l -> In c (cells P Q)) by (intros; eapply Hl; right; eauto).
    destruct (feq x _); cbn [bind]; [apply IH; auto|]. destruct (feq _ _); cbn [bind]; apply IH; auto. }
  destruct (GS (combine (cells P Q) E) (fz 0)) as [r ->]; [intros c x H; eapply in_combine_l; eauto|]. cbn [bind]. eauto.
Qed.

Lemma indep_graph_l {A : arith} (chi2 : F A -> Z -> F A) data pval : well_formed data -> NoDup (map vd_id data) ->
  exists N, forall fuel, N < fuel -> exists a K a' K',
    newIndepGraph chi2 data pval fuel = Ok (a, K) /\ newUFIndepGraph chi2 data pval fuel = Ok (a', K') /\
    components (judged_dependent chi2 data pval) (map vd_id data) K /\ components (judged_dependent chi2 data pval) (map vd_id data) K'.
Proof.
  intros HW HN. pose proof (tests_run chi2 data pval HW) as HT.
  destruct (edges_ok chi2 data pval HT) as (a & Ea & Ha).
  exists (length (todo data a) + length (pairs (length data))). intros fuel Hf.
  destruct (graph_ok chi2 data pval fuel HN a Ea Ha ltac:(lia)) as (K & H1 & H2).
  destruct (uf_graph chi2 data pval fuel HT HN ltac:(lia)) as (a' & K' & H3 & H4).
  exists a, K, a', K'. auto.
Qed.
