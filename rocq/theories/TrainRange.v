(** Updates driven by the entries of a table, in closed form. *)
From Coq Require Import FunctionalExtensionality.
From Verif Require Import Base Res Arith LogMath GraphSpec GraphLemmas Search Storer Spn DP SpnSpec Walk WalkLemmas Struct Derive DeriveLemmas Hard Train TrainSpec GensLemmas.

Section Range.
Context {A : arith}.
Local Notation F := (F A).

Fixpoint stepped (f : F -> F -> F) (m : Z -> option F) (i : nat) (W : list F) : list F :=
  match W with
  | [] => []
  | w :: W => match m (Z.of_nat i) with Some d => f d w | None => w end :: stepped f m (S i) W
  end.

Lemma stepped_length f m : forall W i, length (stepped f m i W) = length W.
Proof. induction W as [|w W IH]; intros i; simpl; auto. Qed.
Lemma stepped_nth f m : forall W i j w, nth_error W j = Some w ->
  nth_error (stepped f m i W) j = Some (match m (Z.of_nat (i + j)) with Some d => f d w | None => w end).
Proof.
  induction W as [|x W IH]; intros i [|j] w E; try discriminate; simpl in *.
  - injection E as ->. rewrite Nat.add_0_r. auto.
  - rewrite (IH (S i) j w E). replace (S i + j) with (i + S j) by lia. auto.
Qed.

Definition inside (m : Z -> option F) (W : list F) : Prop := forall i d, m i = Some d -> (0 <= i < Z.of_nat (length W))%Z.

Fixpoint look (es : list (Z * F)) (i : Z) : option F :=
  match es with [] => None | (j, d) :: t => if (j =? i)%Z then Some d else look t i end.
Lemma look_app a b i : look (a ++ b) i = match look a i with Some d => Some d | None => look b i end.
Proof. induction a as [|[j d] a IH]; simpl; auto. destruct (j =? i)%Z; auto. Qed.
Lemma look_in es i d : NoDup (map fst es) -> (look es i = Some d <-> In (i, d) es).
Proof.
  induction es as [|[j e] es IH]; simpl; intros H; [split; [discriminate|intros []]|].
  apply NoDup_cons_iff in H as [H1 H2]. destruct (Z.eqb_spec j i) as [->|Hne].
  - split; [intros E; injection E as ->; auto|]. intros [E|E]; [congruence|]. exfalso. apply H1. apply in_map_iff. exists (i, d). auto.
  - rewrite IH by auto. split; auto. intros [E|E]; auto. congruence.
Qed.
Lemma look_none es i : ~ In i (map fst es) -> look es i = None.
Proof.
  induction es as [|[j e] es IH]; simpl; intros H; auto. destruct (Z.eqb_spec j i); [exfalso; auto|]. auto.
Qed.

Definition rstep (f : F -> F -> F) : list F -> Z * F -> res (list F) :=
  fun W e => w <- idxZ W (fst e); Ok (set_nth (Z.to_nat (fst e)) (f (snd e) w) W).

Lemma set_nth_other {X} : forall (l : list X) i j v, i <> j -> nth_error (set_nth i v l) j = nth_error l j.
Proof. induction l as [|x l IH]; intros [|i] [|j] v H; simpl; auto; try congruence. Qed.
Lemma set_nth_this {X} : forall (l : list X) i v, i < length l -> nth_error (set_nth i v l) i = Some v.
Proof. induction l as [|x l IH]; intros [|i] v H; simpl in *; auto; try lia. apply IH. lia. Qed.
Lemma set_nth_len {X} : forall (l : list X) i v, length (set_nth i v l) = length l.
Proof. induction l as [|x l IH]; intros [|i] v; simpl; auto. Qed.

Lemma rangeWeights_ok f es m W : NoDup (map fst es) -> (forall i d, In (i, d) es <-> m i = Some d) -> inside m W ->
  @rangeWeights A f es W = Ok (stepped f m 0 W).
Proof.
  intros Hn Hm Hi. unfold rangeWeights. fold (rstep f).
  destruct (foldr_inv (rstep f) (fun a W' => length W' = length W /\
     forall j w, nth_error W j = Some w -> nth_error W' j = Some (match look a (Z.of_nat j) with Some d => f d w | None => w end)) es W)
    as (W' & E & HL & Hv).
  - split; auto.
  - intros a [i d] b W' Ee (HL & Hv). unfold rstep, idxZ, idx. cbn [fst snd].
    assert (Hin : m i = Some d) by (apply Hm; rewrite Ee; apply in_or_app; right; left; auto).
    pose proof (Hi i d Hin) as Hb. destruct (Z.ltb_spec i 0) as [|_]; [lia|].
    assert (Hlt : Z.to_nat i < length W) by lia.
    destruct (nth_error W (Z.to_nat i)) as [w|] eqn:Ew; [|apply nth_error_None in Ew; lia].
    assert (Hna : look a i = None).
    { apply look_none. intros H. rewrite Ee, map_app in Hn. cbn [map fst] in Hn. apply NoDup_remove_2 in Hn. apply Hn. apply in_or_app; auto. }
    pose proof (Hv _ _ Ew) as Ew'. rewrite Z2Nat.id in Ew' by lia. rewrite Hna in Ew'. rewrite Ew'. cbn [bind].
    eexists. split; [reflexivity|]. split; [rewrite set_nth_len; auto|]. intros j x Hj. rewrite look_app. cbn [look].
    destruct (Nat.eq_dec j (Z.to_nat i)) as [->|Hne].
    + rewrite set_nth_this by lia. rewrite Z2Nat.id by lia. rewrite Hna, Z.eqb_refl. congruence.
    + rewrite set_nth_other by auto. rewrite (Hv _ _ Hj). destruct (look a (Z.of_nat j)); auto.
      destruct (Z.eqb_spec i (Z.of_nat j)); auto. lia.
  - rewrite E. f_equal. apply nth_error_same. intros j. destruct (nth_error W j) as [w|] eqn:Ew.
    + rewrite (Hv _ _ Ew), (stepped_nth _ _ _ 0 _ _ Ew). cbn [Nat.add]. f_equal.
      destruct (look es (Z.of_nat j)) as [d|] eqn:El.
      * apply look_in in El; auto. apply Hm in El. rewrite El. auto.
      * destruct (m (Z.of_nat j)) as [d|] eqn:Em; auto. apply Hm in Em. apply look_in in Em; auto. congruence.
    + pose proof Ew as Ew2. apply nth_error_None in Ew2. rewrite (proj2 (nth_error_None W' j)), (proj2 (nth_error_None (stepped f m 0 W) j)); auto; rewrite ?stepped_length; lia.
Qed.

Lemma rangeWeights_panic f es m W i d : (forall i d, In (i, d) es <-> m i = Some d) -> m i = Some d -> ~ (0 <= i < Z.of_nat (length W))%Z ->
  @rangeWeights A f es W = Panic.
Proof.
  intros Hm Hd Ho. apply Hm in Hd. clear Hm. unfold rangeWeights. fold (rstep f). revert W Ho.
  induction es as [|[j e] es IH]; intros W Ho; [destruct Hd|]. simpl. unfold rstep at 1, idxZ, idx. cbn [fst snd].
  destruct (Z.ltb_spec j 0); auto. destruct (nth_error W (Z.to_nat j)) as [w|] eqn:Ew; auto. cbn [bind].
  destruct Hd as [E|Hd].
  - injection E as -> ->. exfalso. apply Ho. assert (Z.to_nat i < length W) by (apply nth_error_Some; congruence). lia.
  - apply IH; auto. rewrite set_nth_len. auto.
Qed.

Lemma rangeWeights_cases f es m W : NoDup (map fst es) -> (forall i d, In (i, d) es <-> m i = Some d) ->
  (inside m W /\ @rangeWeights A f es W = Ok (stepped f m 0 W)) \/
  ((exists i d, m i = Some d /\ ~ (0 <= i < Z.of_nat (length W))%Z) /\ @rangeWeights A f es W = Panic).
Proof.
  intros Hn Hm. destruct (forallb (fun e => (0 <=? fst e)%Z && (fst e <? Z.of_nat (length W))%Z) es) eqn:E.
  - left. assert (Hi : inside m W).
    { intros i d Hd. apply Hm in Hd. rewrite forallb_forall in E. apply E in Hd. cbn [fst] in Hd. lia. }
    split; auto. apply rangeWeights_ok; auto.
  - right. assert (X : exists i d, In (i, d) es /\ ~ (0 <= i < Z.of_nat (length W))%Z).
    { clear - E. induction es as [|[i d] es IH]; [discriminate|]. simpl in E. apply andb_false_iff in E as [E|E].
      - exists i, d. split; [left; auto|]. lia.
      - destruct (IH E) as (j & e & H1 & H2). exists j, e. split; auto. right; auto. }
    destruct X as (i & d & H1 & H2). split; [exists i, d; split; auto; apply Hm; auto|]. apply (rangeWeights_panic f es m W i d); auto. apply Hm; auto.
Qed.

(** Independent of the order. *)
Lemma rangeWeights_order f es es' m W : NoDup (map fst es) -> (forall i d, In (i, d) es <-> m i = Some d) ->
  NoDup (map fst es') -> (forall i d, In (i, d) es' <-> m i = Some d) -> @rangeWeights A f es W = @rangeWeights A f es' W.
Proof.
  intros Hn Hm Hn' Hm'. destruct (rangeWeights_cases f es m W Hn Hm) as [[Hi ->]|[(i & d & H1 & H2) ->]].
  - symmetry. apply rangeWeights_ok; auto.
  - symmetry. apply (rangeWeights_panic f es' m W i d); auto.
Qed.

(** Updates of a network node by node, each looking at its own node only. *)
Section Local.
Variable proc : network A -> nat -> res (network A).
Variable g : nat -> node A -> res (node A).
Hypothesis Hp : forall net s, proc net s = (nd <- g s (net s); Ok (upd net s nd)).
Hypothesis Hg : forall s nd, g s nd <> Fuel.

Lemma local_ok net l : NoDup l -> (forall s, In s l -> exists nd, g s (net s) = Ok nd) ->
  exists net', foldr_ proc l net = Ok net' /\ (forall s, In s l -> g s (net s) = Ok (net' s)) /\ (forall s, ~ In s l -> net' s = net s).
Proof.
  intros Hn Hok. destruct (foldr_inv proc (fun a net' => (forall s, In s a -> g s (net s) = Ok (net' s)) /\ (forall s, ~ In s a -> net' s = net s)) l net)
    as (net' & E & H1 & H2).
  - split; auto. intros s [].
  - intros a x b n1 El (H1 & H2). assert (Hx : ~ In x a).
    { rewrite El in Hn. apply NoDup_remove_2 in Hn. intros H. apply Hn. apply in_or_app; auto. }
    rewrite Hp, H2 by auto. destruct (Hok x) as (nd & Ex); [rewrite El; apply in_or_app; right; left; auto|]. rewrite Ex. cbn [bind].
    eexists. split; [reflexivity|]. split.
    + intros s Hs. destruct (Nat.eq_dec s x) as [->|Hne]; [rewrite upd_same; auto|]. rewrite upd_diff by auto. apply H1.
      apply in_app_or in Hs as [Hs|[Hs|[]]]; auto. congruence.
    + intros s Hs. assert (s <> x) by (intros ->; apply Hs; apply in_or_app; right; left; auto). rewrite upd_diff by auto. apply H2.
      intros H3. apply Hs. apply in_or_app; auto.
  - eauto.
Qed.

Lemma local_panic net l s : NoDup l -> In s l -> g s (net s) = Panic -> foldr_ proc l net = Panic.
Proof.
  revert net. induction l as [|x l IH]; intros net Hn Hs E; [destruct Hs|]. simpl. rewrite Hp.
  apply NoDup_cons_iff in Hn as [Hx Hn]. destruct (g x (net x)) as [nd| |] eqn:Ex; cbn [bind].
  - destruct Hs as [->|Hs]; [congruence|]. apply IH; auto. rewrite upd_diff by (intros ->; contradiction). auto.
  - auto.
  - destruct (Hg _ _ Ex).
Qed.

Lemma local_cases net l : NoDup l ->
  (exists net', foldr_ proc l net = Ok net' /\ (forall s, In s l -> g s (net s) = Ok (net' s)) /\ (forall s, ~ In s l -> net' s = net s)) \/
  (exists s, In s l /\ g s (net s) = Panic) /\ foldr_ proc l net = Panic.
Proof.
  intros Hn. assert (X : (forall s, In s l -> exists nd, g s (net s) = Ok nd) \/ exists s, In s l /\ g s (net s) = Panic).
  { clear Hn. induction l as [|x l IH]; [left; intros s []|]. destruct (g x (net x)) as [nd| |] eqn:Ex.
    - destruct IH as [H|(s & H1 & H2)]; [left|right; exists s; simpl; auto]. intros s [<-|Hs]; eauto.
    - right. exists x. simpl; auto.
    - destruct (Hg _ _ Ex). }
  destruct X as [X|(s & H1 & H2)]; [left; apply local_ok; auto|]. right. split; eauto. eapply local_panic; eauto.
Qed.
End Local.

(** Two such updates give the same if they treat the same nodes alike, and the others not at all. *)
Lemma local_same (p1 : network A -> nat -> res (network A)) (g1 : nat -> node A -> res (node A)) (p2 : network A -> nat -> res (network A))
    (g2 : nat -> node A -> res (node A)) (net : network A) l1 l2 :
  (forall net s, p1 net s = (nd <- g1 s (net s); Ok (upd net s nd))) -> (forall s nd, g1 s nd <> Fuel) ->
  (forall net s, p2 net s = (nd <- g2 s (net s); Ok (upd net s nd))) -> (forall s nd, g2 s nd <> Fuel) ->
  NoDup l1 -> NoDup l2 ->
  (forall s, In s l1 -> In s l2 \/ g1 s (net s) = Ok (net s)) ->
  (forall s, In s l2 -> In s l1 \/ g2 s (net s) = Ok (net s)) ->
  (forall s, In s l1 -> In s l2 -> g1 s (net s) = g2 s (net s)) ->
  foldr_ p1 l1 net = foldr_ p2 l2 net.
Proof.
  intros H1 F1 H2 F2 N1 N2 I1 I2 Hs.
  destruct (local_cases p1 g1 H1 F1 net l1 N1) as [(n1 & -> & A1 & B1)|[(s & Hi & Hp) ->]].
  - destruct (local_cases p2 g2 H2 F2 net l2 N2) as [(n2 & -> & A2 & B2)|[(s & Hi & Hp) _]].
    + f_equal. apply functional_extensionality. intros s.
      destruct (in_dec Nat.eq_dec s l1) as [i1|i1], (in_dec Nat.eq_dec s l2) as [i2|i2].
      * pose proof (A1 s i1) as X. rewrite (Hs s i1 i2), (A2 s i2) in X. congruence.
      * rewrite (B2 s i2). destruct (I1 s i1) as [H|H]; [contradiction|]. rewrite (A1 s i1) in H. congruence.
      * rewrite (B1 s i1). destruct (I2 s i2) as [H|H]; [contradiction|]. rewrite (A2 s i2) in H. congruence.
      * rewrite B1, B2; auto.
    + exfalso. destruct (I2 s Hi) as [H|H]; [|congruence]. pose proof (A1 s H) as X. rewrite (Hs s H Hi) in X. congruence.
  - symmetry. destruct (I1 s Hi) as [H|H]; [|congruence]. apply (local_panic p2 g2 H2 F2 net l2 s); auto. rewrite <- (Hs s Hi H). auto.
Qed.
End Range.
