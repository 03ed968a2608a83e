(** Proofs about DBSCAN: termination, and the relation its union-find forest represents. *)
From Coq Require Import Relations Permutation.
From Verif Require Import Base Res Arith GoMap Tables UnionFind UnionSpec UnionLemmas Indep IndepSpec IndGraphLemmas Cluster ClusterSpec ClusterLemmas ClusterModes Dbscan.

(** ** Counting representatives *)
Definition roots (n : nat) (s : uf) : nat := length (filter (fun i => Nat.eqb (pa s i) i) (seq 0 n)).

Lemma filter_drop {T} (f g : T -> bool) (l : list T) a : NoDup l -> In a l -> f a = true -> g a = false ->
  (forall x, x <> a -> f x = g x) -> length (filter f l) = S (length (filter g l)).
Proof.
  induction l as [|x l IH]; intros N Ha Fa Ga H; [destruct Ha|]. inversion N as [|? ? Hx Nl]; subst. simpl. destruct Ha as [->|Ha].
  - rewrite Fa, Ga. cbn [length]. f_equal. f_equal. apply filter_ext_in. intros y Hy. apply H. intros ->. contradiction.
  - assert (Hxa : x <> a) by (intros ->; contradiction). rewrite (H x Hxa). destruct (g x); cbn [length]; rewrite IH; auto.
Qed.

Lemma roots_same n s s' : same_sets s s' -> roots n s' = roots n s.
Proof.
  intros (_ & _ & _ & _ & H & _). unfold roots. f_equal. apply filter_ext. intros x.
  destruct (Nat.eqb_spec (pa s' x) x) as [E|E], (Nat.eqb_spec (pa s x) x) as [E'|E']; auto.
  - exfalso. apply E', H; auto.
  - exfalso. apply E, H; auto.
Qed.
Lemma roots_link n s s' a b : pa s' = upd (pa s) a b -> pa s a = a -> a <> b -> a < n -> roots n s = S (roots n s').
Proof.
  intros E Ha Hab Hn. unfold roots. apply (filter_drop _ _ _ a); [apply seq_NoDup|apply in_seq; lia| | |].
  - apply Nat.eqb_eq; auto.
  - rewrite E, upd_same. apply Nat.eqb_neq. auto.
  - intros x Hx. rewrite E, upd_diff; auto.
Qed.

Lemma union_roots k fuel s x y E s' r : INV k s E -> x < unext s -> y < unext s -> k < fuel ->
  union fuel s x y = Ok (s', r) ->
  roots (unext s) s' <= roots (unext s) s /\ (~ rst E x y -> roots (unext s) s' < roots (unext s) s) /\
  (forall z, pa s z <> z -> pa s' z <> z) /\ (k = 0 -> pa s x = x -> ~ rst E x y -> pa s' x <> x).
Proof.
  intros HI Hx Hy Hf. pose proof (i_wf _ _ _ HI) as W. unfold union.
  destruct (find_ok k fuel s x W Hx ltac:(lia)) as (s1 & a & -> & W1 & S1 & La & Hra). cbn [bind fst snd].
  assert (E1 : unext s1 = unext s) by apply S1.
  destruct (find_ok k fuel s1 y W1 ltac:(lia) ltac:(lia)) as (s2 & b & -> & W2 & S2 & Lb & Hrb). cbn [bind fst snd].
  pose proof (same_trans _ _ _ S1 S2) as S12.
  assert (Lb0 : leads s y b) by (apply S1; auto; lia).
  rewrite <- (roots_same (unext s) s s2 S12).
  assert (Rr : forall z, pa s z <> z -> pa s2 z <> z) by (intros z Hz Hz'; apply Hz, S12; auto).
  assert (Ra : pa s2 a = a) by (apply S12; eapply leads_isroot; eauto).
  assert (Rb : pa s2 b = b) by (apply S12; eapply leads_isroot; eauto).
  destruct (Nat.eqb_spec a b) as [->|Hab].
  - intros H. injection H as <- _.
    assert (Hr : rst E x y) by (apply (i_rel _ _ _ HI x y b b); auto).
    split; auto. split; [contradiction|]. split; [auto|contradiction].
  - destruct (Nat.ltb_spec (rank s2 b) (rank s2 a)) as [Hr|Hr].
    + intros H. injection H as H _.
      assert (E' : pa s' = upd (pa s2) b a) by (rewrite <- H; reflexivity).
      rewrite (roots_link (unext s) s2 s' b a); auto; [|lia]. split; [lia|]. split; [lia|]. split.
      * intros z Hz. rewrite E'. unfold upd. destruct (Nat.eqb_spec z b) as [->|]; auto.
      * intros ->. pose proof (w_k _ _ W2 a). assert (unext s2 = unext s1) by apply S2. lia.
    + intros H. injection H as H _.
      assert (E' : pa s' = upd (pa s2) a b) by (rewrite <- H; cbn [addCh setPa rank]; destruct (rank s2 a =? rank s2 b); reflexivity).
      rewrite (roots_link (unext s) s2 s' a b); auto. split; [lia|]. split; [lia|]. split.
      * intros z Hz. rewrite E'. unfold upd. destruct (Nat.eqb_spec z a) as [->|]; auto.
      * intros _ Hroot _. assert (a = x) by (apply (leads_fun s x); auto; constructor; auto). subst a. rewrite E', upd_same. auto.
Qed.

(** ** The sweep *)
Section Sweep.
Context {A : arith}.
Variable eps : F A.
Variable mp : Z.
Variable fuel : nat.
Variable n : nat.
Variable dm : list (list (F A)).
Hypothesis dmL : length dm = n.
Hypothesis dmR : forall row, In row dm -> length row = n.

(** The pairs within eps. *)
Definition close (p i : nat) : Prop := p < n /\ i < n /\ i <> p /\ exists row d, nth_error dm p = Some row /\ nth_error row i = Some d /\ fge eps d = true.

Lemma scan_l k E p : p < n -> k < fuel -> forall l s nbh, INV k s E -> unext s = n -> (forall i, In i l -> i < n) ->
  exists s' nbh', foldr_ (scan eps fuel dm p) l (s, nbh) = Ok (s', nbh ++ nbh') /\ INV k s' E /\ unext s' = n /\ vid s' = vid s /\
    roots n s' = roots n s /\ (forall z, pa s' z = z <-> pa s z = z) /\ length nbh' <= length l /\
    (forall i, In i nbh' -> In i l /\ close p i /\ ~ rst E p i) /\ (forall i, In i l -> close p i -> In i nbh' \/ rst E p i).
Proof.
  intros Hp Hk. induction l as [|i l IH]; intros s nbh HI Hn Hl; cbn [foldr_].
  { exists s, []. rewrite app_nil_r. split; auto. split; auto. split; auto. split; auto. split; auto. split; [tauto|]. split; auto. split; intros i []. }
  assert (Hi : i < n) by (apply Hl; left; auto).
  assert (Hl' : forall j, In j l -> j < n) by (intros; apply Hl; right; auto).
  assert (Keep : ~ close p i \/ rst E p i -> forall s1, INV k s1 E -> unext s1 = n -> vid s1 = vid s -> roots n s1 = roots n s -> (forall z, pa s1 z = z <-> pa s z = z) ->
    exists s' nbh', foldr_ (scan eps fuel dm p) l (s1, nbh) = Ok (s', nbh ++ nbh') /\ INV k s' E /\ unext s' = n /\ vid s' = vid s /\
      roots n s' = roots n s /\ (forall z, pa s' z = z <-> pa s z = z) /\ length nbh' <= length (i :: l) /\
      (forall j, In j nbh' -> In j (i :: l) /\ close p j /\ ~ rst E p j) /\ (forall j, In j (i :: l) -> close p j -> In j nbh' \/ rst E p j)).
  { intros Hc s1 H1 H2 H3 H4 H5. destruct (IH s1 nbh H1 H2 Hl') as (s' & nbh' & E' & I1 & I2 & I3 & I4 & I4' & I5 & I6 & I7).
    exists s', nbh'. split; auto. split; auto. split; auto. split; [congruence|]. split; [congruence|]. split; [intros z; rewrite I4'; auto|]. split; [simpl; lia|]. split.
    - intros j Hj. destruct (I6 j Hj) as (? & ? & ?). split; [right; auto|auto].
    - intros j [<-|Hj] Cj; [|apply I7; auto]. right. destruct Hc as [Hc|Hc]; auto. contradiction. }
  unfold scan at 1. destruct (Nat.eqb_spec i p) as [->|Hip].
  { cbn [bind]. apply Keep; auto; [|tauto]. right. apply rst_refl. }
  destruct (idx_ok dm p ltac:(lia)) as (row & -> & Erow). cbn [bind].
  destruct (idx_ok row i ltac:(rewrite (dmR row); auto; eapply nth_error_In; eauto)) as (d & -> & Ed). cbn [bind].
  destruct (fge eps d) eqn:Eg.
  - pose proof (i_wf _ _ _ HI) as W.
    destruct (find_ok k fuel s i W ltac:(lia) ltac:(lia)) as (s1 & a & -> & W1 & S1 & La & _). cbn [bind fst snd].
    assert (U1 : unext s1 = unext s) by apply S1.
    destruct (find_ok k fuel s1 p W1 ltac:(lia) ltac:(lia)) as (s2 & b & -> & W2 & S2 & Lb & _). cbn [bind fst snd].
    pose proof (same_trans _ _ _ S1 S2) as S12. pose proof (INV_same _ _ _ _ HI W2 S12) as HI2.
    assert (U2 : unext s2 = n) by (destruct S12 as (_ & _ & _ & -> & _); auto).
    assert (Rz : forall z, pa s2 z = z <-> pa s z = z) by (destruct S12 as (_ & _ & _ & _ & Rz & _); auto).
    assert (V2 : vid s2 = vid s) by (destruct S12 as (_ & -> & _); auto).
    assert (Lb0 : leads s p b) by (apply S1; auto; lia).
    pose proof (i_rel _ _ _ HI i p a b ltac:(lia) ltac:(lia) La Lb0) as Hrel.
    assert (Ci : close p i) by (repeat split; auto; eauto).
    destruct (Nat.eqb_spec a b) as [->|Hab].
    + apply Keep; auto; [|apply roots_same; auto]. right. apply rst_sym, Hrel. auto.
    + assert (Hnr : ~ rst E p i) by (intros H; apply Hab, Hrel, rst_sym; auto).
      destruct (IH s2 (nbh ++ [i]) HI2 U2 Hl') as (s' & nbh' & E' & I1 & I2 & I3 & I4 & I4' & I5 & I6 & I7).
      exists s', (i :: nbh'). rewrite <- app_assoc in E'. split; auto. split; auto. split; auto. split; [congruence|].
      split; [rewrite I4; apply roots_same; auto|]. split; [intros z; rewrite I4'; auto|]. split; [simpl; lia|]. split.
      * intros j [<-|Hj]; [split; [left; auto|auto]|]. destruct (I6 j Hj) as (? & ? & ?). split; [right; auto|auto].
      * intros j [<-|Hj] Cj; [left; left; auto|]. destruct (I7 j Hj Cj); [left; right; auto|right; auto].
  - cbn [bind]. apply Keep; auto; [|tauto]. left. intros (_ & _ & _ & row' & d' & E1 & E2 & E3). rewrite Erow in E1. injection E1 as <-. rewrite Ed in E2. injection E2 as <-. congruence.
Qed.

Lemma join_l p : p < n -> forall l k E s vst queue, INV k s E -> unext s = n -> (forall q, In q l -> q < n) -> k + length l < fuel ->
  exists s' vst' E', foldr_ (join fuel p) l (s, vst, queue) = Ok (s', vst', queue ++ l) /\ INV (k + length l) s' E' /\ unext s' = n /\ vid s' = vid s /\
    roots n s' <= roots n s /\ (forall q t, l = q :: t -> ~ rst E p q -> roots n s' < roots n s) /\
    (forall z, pa s z <> z -> pa s' z <> z) /\ (forall q t, l = q :: t -> k = 0 -> pa s p = p -> ~ rst E p q -> pa s' p <> p) /\
    (forall x y, E' x y <-> E x y \/ (x = p /\ In y l)) /\
    (forall x, vst' x = true <-> vst x = true \/ (l <> [] /\ x = p) \/ In x l).
Proof.
  intros Hp. induction l as [|q l IH]; intros k E s vst queue HI Hn Hl Hf; cbn [foldr_ length] in *.
  { exists s, vst, E. rewrite app_nil_r, Nat.add_0_r. split; auto. split; auto. split; auto. split; auto. split; auto. split; [discriminate|]. split; auto. split; [discriminate|]. split.
    - intros x y. split; auto. intros [H|(_ & [])]; auto.
    - intros x. split; auto. intros [H|[(H & _)|[]]]; auto. }
  assert (Hq : q < n) by (apply Hl; left; auto).
  destruct (union_ok k fuel s p q E HI ltac:(lia) ltac:(lia) ltac:(lia)) as (s1 & o & z & Eu & HI1 & U1 & V1).
  pose proof (union_roots k fuel s p q E s1 (o, z) HI ltac:(lia) ltac:(lia) ltac:(lia) Eu) as (Rt1 & Rt2 & Rt3 & Rt4). rewrite Hn in Rt1, Rt2.
  unfold join at 1. rewrite Eu. cbn [bind fst].
  destruct (IH (S k) _ s1 (upd (upd vst p true) q true) (queue ++ [q]) HI1 ltac:(lia) ltac:(intros; apply Hl; right; auto) ltac:(lia))
    as (s' & vst' & E' & E1 & I1 & I2 & I3 & I4 & I5 & J1 & J2 & I6 & I7).
  exists s', vst', E'. rewrite <- app_assoc in E1. split; [exact E1|]. rewrite Nat.add_succ_r. split; [exact I1|]. split; auto. split; [congruence|].
  split; [lia|]. split.
  { intros q' t Hqt Hnr. injection Hqt as <- <-. specialize (Rt2 Hnr). lia. }
  split; [auto|]. split.
  { intros q' t Hqt Hk Hroot Hnr. injection Hqt as <- <-. auto. }
  split.
  - intros x y. rewrite I6. split.
    + intros [[H|(-> & ->)]|(-> & H)]; auto; right; split; auto; [left; auto|right; auto].
    + intros [H|(-> & [<-|H])]; auto.
  - intros x. rewrite I7. unfold upd. destruct (Nat.eqb_spec x q) as [->|Hxq].
    + split; [intros _; right; right; left; auto|intros _; left; auto].
    + destruct (Nat.eqb_spec x p) as [->|Hxp].
      * split; [intros _; right; left; split; [discriminate|auto]|intros _; left; auto].
      * split; [intros [H|[(H1 & H2)|H]]; auto; right; right; right; auto|].
        intros [H|[(_ & H)|[H|H]]]; auto; congruence.
Qed.

Lemma refill_l vst v : let (q, v') := refill n vst v in
  length q <= n /\ (forall i, In i q -> v <= i < n /\ vst i = false) /\ (forall i, v <= i < n -> vst i = false -> In i q) /\ (forall i, v' <= i < n -> vst i = true).
Proof.
  unfold refill.
  assert (G : forall m u q w, let (q', w') := fold_left (fun (st : list nat * nat) i => if vst i then st else (fst st ++ [i], S i)) (seq u m) (q, w) in
    length q' <= length q + m /\ (forall i, In i q' -> In i q \/ (u <= i < u + m /\ vst i = false)) /\ (forall i, In i q \/ (u <= i < u + m /\ vst i = false) -> In i q') /\
    ((forall i, w <= i < u -> vst i = true) -> forall i, w' <= i < u + m -> vst i = true) /\ (m = 0 -> w' = w)).
  { induction m as [|m IH]; intros u q w; cbn [seq fold_left].
    - repeat split; auto; try lia. intros i [H|[H _]]; auto; lia. intros H i Hi. apply H. lia.
    - destruct (vst u) eqn:Ev; cbn [fst].
      + specialize (IH (S u) q w). destruct (fold_left _ _ _) as (q', w'). destruct IH as (H1 & H2 & H3 & H4 & _).
        split; [lia|]. split; [intros i Hi; apply H2 in Hi as [?|(? & ?)]; auto; right; split; auto; lia|]. split.
        * intros i [Hi|(Hi & Hv)]; apply H3; auto. right. split; auto. assert (i <> u) by (intros ->; congruence). lia.
        * split; [|discriminate]. intros Hw i Hi. apply H4; [|lia]. intros j Hj. destruct (Nat.eq_dec j u) as [->|]; auto. apply Hw. lia.
      + specialize (IH (S u) (q ++ [u]) (S u)). destruct (fold_left _ _ _) as (q', w'). destruct IH as (H1 & H2 & H3 & H4 & _).
        rewrite app_length in H1. simpl in H1. split; [lia|]. split.
        * intros i Hi. apply H2 in Hi as [Hi|(Hi & Hv)]; [|right; split; auto; lia]. apply in_app_iff in Hi as [Hi|[<-|[]]]; auto. right; split; auto; lia.
        * split.
          -- intros i [Hi|(Hi & Hv)]; apply H3; [left; apply in_app_iff; auto|]. destruct (Nat.eq_dec i u) as [->|]; [left; apply in_app_iff; simpl; auto|right; split; auto; lia].
          -- split; [|discriminate]. intros _ i Hi. apply H4; [|lia]. intros j Hj. lia. }
  specialize (G (n - v) v [] v). destruct (fold_left _ _ _) as (q, v'). destruct G as (H1 & H2 & H3 & H4 & H5). simpl in H1.
  split; [lia|]. split; [intros i Hi; apply H2 in Hi as [[]|(Hi & Hv)]; split; auto; lia|]. split.
  - intros i Hi Hv. apply H3. right. split; auto. lia.
  - intros i Hi. destruct (le_lt_dec v n); [apply H4; [intros; lia|lia]|]. specialize (H5 ltac:(lia)). lia.
Qed.

(** Every row was swept, waits in the queue, or will be enqueued by the first refill. *)
Record progress (pending : bool) (k : nat) (s : uf) (E : nat -> nat -> Prop) (vst : nat -> bool) (vindex : nat) (queue : list nat) (swept : nat -> Prop) : Prop := {
  g_inv : INV k s E;
  g_next : unext s = n;
  g_k : k + n * roots n s <= n * n;
  g_queue : forall p, In p queue -> p < n;
  g_sound : forall x y, E x y -> close x y;
  g_swept : forall p, swept p -> (mp <= 1)%Z -> forall i, close p i -> rst E p i;
  g_vst : forall i, i < n -> vst i = true -> swept i \/ In i queue;
  g_rest : if pending then vindex = 0 else forall i, vindex <= i < n -> vst i = true;
  g_all : pending = false -> forall i, i < n -> swept i \/ In i queue }.

Definition potential (pending : bool) (s : uf) (queue : list nat) : nat :=
  length queue + n * roots n s + if pending then n else 0.

Definition isNil {T} (l : list T) : bool := match l with [] => true | _ => false end.

Lemma step_l : n * n + n < fuel -> forall pending k s E vst vindex p queue swept,
  progress pending k s E vst vindex (p :: queue) swept ->
  exists pending2 k2 s2 E2 vst2 vindex2 queue2 swept2,
    (forall fu, sweep eps mp fuel n dm (S fu) s vst vindex (p :: queue) = sweep eps mp fuel n dm fu s2 vst2 vindex2 queue2) /\
    progress pending2 k2 s2 E2 vst2 vindex2 queue2 swept2 /\ (queue2 = [] -> pending2 = false) /\
    potential pending2 s2 queue2 < potential pending s (p :: queue) /\ vid s2 = vid s /\ (forall z, pa s z <> z -> pa s2 z <> z) /\
    ((mp <= 1)%Z -> k = 0 -> pa s p = p -> (exists q, close p q /\ ~ rst E p q) -> pa s2 p <> p) /\
    ((forall q, ~ close p q) -> k2 = k /\ E2 = E /\ vst2 = vst /\ (forall z, pa s2 z = z <-> pa s z = z) /\
       (queue2, vindex2) = if isNil queue then refill n vst vindex else (queue, vindex)).
Proof.
  intros Hfuel pending k s E vst vindex p queue swept P. destruct P. assert (Hp : p < n) by (apply g_queue0; left; auto).
  destruct (scan_l k E p Hp ltac:(lia) (seq 0 n) s [] g_inv0 g_next0) as (s1 & nbh & Escan & I1 & U1 & V1 & R1 & Z1 & L1 & N1 & N2).
  { intros i Hi. apply in_seq in Hi. lia. }
  cbn [app] in Escan. rewrite seq_length in L1.
  assert (Hnb : forall q, In q nbh -> q < n) by (intros q Hq; destruct (N1 q Hq) as (H & _); apply in_seq in H; lia).
  assert (Hroots : nbh <> [] -> 0 < roots n s).
  { intros _. unfold roots. destruct (leads_total k s (i_wf _ _ _ g_inv0) p ltac:(lia)) as (r & L & Hr & _).
    assert (In r (filter (fun i => Nat.eqb (pa s i) i) (seq 0 n))) by (apply filter_In; split; [apply in_seq; lia|apply Nat.eqb_eq; eapply leads_isroot; eauto]).
    destruct (filter _ (seq 0 n)); [contradiction|simpl; lia]. }
  (* one step: the queue before a refill *)
  assert (Step : exists k1 s2 E2 vst2 add, (if (mp <=? Z.of_nat (length nbh))%Z then foldr_ (join fuel p) nbh (s1, vst, queue) else Ok (s1, vst, queue)) = Ok (s2, vst2, queue ++ add) /\
    INV k1 s2 E2 /\ unext s2 = n /\ vid s2 = vid s /\ k1 + n * roots n s2 <= n * n /\ length add + n * roots n s2 <= n * roots n s /\ (forall q, In q add -> q < n) /\
    (forall x y, E x y -> E2 x y) /\ (forall x y, E2 x y -> close x y) /\ ((mp <= 1)%Z -> forall i, close p i -> rst E2 p i) /\
    (forall x, vst2 x = true -> vst x = true \/ x = p \/ In x add) /\ (forall x, vst x = true -> vst2 x = true) /\
    (forall z, pa s z <> z -> pa s2 z <> z) /\ ((mp <= 1)%Z -> k = 0 -> pa s p = p -> (exists q, close p q /\ ~ rst E p q) -> pa s2 p <> p) /\
    ((forall q, ~ close p q) -> k1 = k /\ E2 = E /\ vst2 = vst /\ (forall z, pa s2 z = z <-> pa s z = z) /\ add = [])).
  { assert (Hnz : (exists q, close p q /\ ~ rst E p q) -> nbh <> []).
    { intros (q & Cq & Hq) ->. destruct (N2 q) as [[]|]; auto. apply in_seq. destruct Cq; lia. }
    assert (Same : (if (mp <=? Z.of_nat (length nbh))%Z then foldr_ (join fuel p) nbh (s1, vst, queue) else Ok (s1, vst, queue)) = Ok (s1, vst, queue) ->
      ((mp <= 1)%Z -> nbh = []) ->
      exists k1 s2 E2 vst2 add, (if (mp <=? Z.of_nat (length nbh))%Z then foldr_ (join fuel p) nbh (s1, vst, queue) else Ok (s1, vst, queue)) = Ok (s2, vst2, queue ++ add) /\
    INV k1 s2 E2 /\ unext s2 = n /\ vid s2 = vid s /\ k1 + n * roots n s2 <= n * n /\ length add + n * roots n s2 <= n * roots n s /\ (forall q, In q add -> q < n) /\
    (forall x y, E x y -> E2 x y) /\ (forall x y, E2 x y -> close x y) /\ ((mp <= 1)%Z -> forall i, close p i -> rst E2 p i) /\
    (forall x, vst2 x = true -> vst x = true \/ x = p \/ In x add) /\ (forall x, vst x = true -> vst2 x = true) /\
    (forall z, pa s z <> z -> pa s2 z <> z) /\ ((mp <= 1)%Z -> k = 0 -> pa s p = p -> (exists q, close p q /\ ~ rst E p q) -> pa s2 p <> p) /\
    ((forall q, ~ close p q) -> k1 = k /\ E2 = E /\ vst2 = vst /\ (forall z, pa s2 z = z <-> pa s z = z) /\ add = [])).
    { intros -> Hnil. exists k, s1, E, vst, []. rewrite app_nil_r, R1. split; auto. split; auto. split; auto. split; auto. split; auto. split; [simpl; lia|].
      split; [intros q []|]. split; auto. split; auto. split.
      { intros Hm i Ci. specialize (Hnil Hm). subst nbh. destruct (N2 i) as [[]|H]; auto. apply in_seq. destruct Ci; lia. }
      split; auto. split; auto. split; [intros z Hz; rewrite Z1; auto|]. split.
      - intros Hm _ _ Hq. exfalso. apply Hnz in Hq. auto.
      - intros _. auto. }
    destruct (Z.leb_spec mp (Z.of_nat (length nbh))) as [Hmp|Hmp].
    - destruct nbh as [|q0 t0] eqn:Enb; [apply Same; auto|]. rewrite <- Enb in *.
      destruct (join_l p Hp nbh k E s1 vst queue I1 U1 Hnb) as (s2 & vst2 & E2 & -> & I2 & U2 & V2 & R2 & R3 & R4 & R5 & M2 & T2).
      { pose proof (Hroots ltac:(rewrite Enb; discriminate)). assert (n <= n * roots n s) by nia. lia. }
      exists (k + length nbh), s2, E2, vst2, nbh. split; auto. split; auto. split; auto. split; [congruence|].
      assert (Hq0 : In q0 nbh) by (rewrite Enb; left; auto).
      destruct (N1 q0 Hq0) as (_ & Cq0 & Hnr).
      assert (Hdrop : length nbh + n * roots n s2 <= n * roots n s).
      { specialize (R3 q0 t0 Enb Hnr). rewrite R1 in R3. nia. }
      split; [lia|]. split; auto. split; auto. split; [intros x y H; apply M2; auto|]. split.
      { intros x y H. apply M2 in H as [H|(-> & H)]; auto. apply N1; auto. }
      split.
      { intros _ i Ci. destruct (N2 i) as [H|H]; auto; [apply in_seq; destruct Ci; lia| |].
        * constructor. apply M2. auto.
        * eapply rst_sub; [|exact H]. intros a b Hab. constructor. apply M2; auto. }
      split; [intros x H; apply T2 in H as [H|[(_ & ->)|H]]; auto|]. split; [intros x H; apply T2; auto|].
      split; [intros z Hz; apply R4; rewrite Z1; auto|]. split.
      + intros _ Hk0 Hroot _. apply (R5 q0 t0); auto. apply Z1; auto.
      + intros Hnone. exfalso. apply (Hnone q0); auto.
    - apply Same; auto. intros Hm. destruct nbh; auto. simpl in Hmp. lia. }
  destruct Step as (k1 & s2 & E2 & vst2 & add & Estep & I2 & U2 & V2 & K2 & A2 & Q2 & M2 & S2 & D2 & T2 & T3 & T4 & T5 & T6).
  assert (RS : forall x y, rst E x y -> rst E2 x y) by (intros x y; apply rst_sub; intros a b Hab; constructor; auto).
  set (swept' := fun i => swept i \/ i = p).
  assert (Sw : forall q, swept' q -> (mp <= 1)%Z -> forall i, close q i -> rst E2 q i).
  { intros q [Hq| ->] Hm i Ci; auto. }
  assert (Vs : forall i, i < n -> vst2 i = true -> swept' i \/ In i (queue ++ add)).
  { intros i Hi Hv. apply T2 in Hv as [Hv|[Hv|Hv]]; [|left; right; auto|right; apply in_app_iff; auto].
    destruct (g_vst0 i Hi Hv) as [H|[H|H]]; [left; left; auto|left; right; auto|right; apply in_app_iff; auto]. }
  destruct (queue ++ add) as [|q0 qs] eqn:Eq.
  * assert (La : queue = [] /\ add = []) by (destruct queue; [destruct add; [auto|discriminate]|discriminate]). destruct La as (-> & ->).
    pose proof (refill_l vst2 vindex) as RF. destruct (refill n vst2 vindex) as (qr, v') eqn:Er. destruct RF as (F1 & F2 & F3 & F4).
    exists false, k1, s2, E2, vst2, v', qr, swept'. split.
    { intros fu. cbn [sweep]. rewrite Escan. cbn [bind fst snd]. rewrite Estep. cbn [bind]. rewrite Er. auto. }
    split.
    { constructor; auto.
      ++ intros i Hi. apply F2 in Hi. lia.
      ++ intros i Hi Hv. destruct (Vs i Hi Hv) as [H|[]]; auto.
      ++ intros _ i Hi. destruct (vst2 i) eqn:Ev; [destruct (Vs i Hi Ev) as [H|[]]; auto|].
         destruct pending; [right; apply F3; auto; lia|].
         destruct (g_all0 eq_refl i Hi) as [H|[H|H]]; [left; left; auto|left; right; auto|]. destruct H. }
    split; auto. split.
    { unfold potential. cbn [length] in *. destruct pending; [lia|].
      assert (Hqr : qr = []).
      { destruct qr as [|j qr]; auto. destruct (F2 j (or_introl eq_refl)) as (F5 & F6). pose proof (T3 j (g_rest0 j F5)). congruence. }
      rewrite Hqr. simpl. lia. }
    split; auto. split; auto. split; auto. intros Hnone. destruct (T6 Hnone) as (-> & -> & -> & Hz & _). cbn [isNil]. auto.
  * exists pending, k1, s2, E2, vst2, vindex, (q0 :: qs), swept'. split.
    { intros fu. cbn [sweep]. rewrite Escan. cbn [bind fst snd]. rewrite Estep. cbn [bind]. auto. }
    split.
    { constructor; auto.
      ++ intros q Hq. rewrite <- Eq in Hq. apply in_app_iff in Hq as [Hq|Hq]; auto. apply g_queue0. right; auto.
      ++ destruct pending; auto.
      ++ intros Hpd i Hi. destruct (g_all0 Hpd i Hi) as [H|[H|H]]; [left; left; auto|left; right; auto|right; rewrite <- Eq; apply in_app_iff; auto]. }
    split; [discriminate|]. split; [unfold potential; rewrite <- Eq, app_length; cbn [length]; lia|]. split; auto. split; auto. split; auto.
    intros Hnone. destruct (T6 Hnone) as (-> & -> & -> & Hz & ->). rewrite app_nil_r in Eq. rewrite Eq. cbn [isNil]. auto.
Qed.

Lemma sweep_l : n * n + n < fuel -> forall fu pending k s E vst vindex queue swept,
  progress pending k s E vst vindex queue swept -> (queue = [] -> pending = false) -> potential pending s queue <= fu ->
  exists k' s' E', sweep eps mp fuel n dm fu s vst vindex queue = Ok s' /\ INV k' s' E' /\ k' <= n * n /\ unext s' = n /\ vid s' = vid s /\
    (forall x y, E' x y -> close x y) /\ ((mp <= 1)%Z -> forall p i, close p i -> rst E' p i) /\ (forall z, pa s z <> z -> pa s' z <> z).
Proof.
  intros Hfuel. induction fu as [|fu IH]; intros pending k s E vst vindex queue swept P HQ Hpot; destruct queue as [|p queue].
  - specialize (HQ eq_refl). subst pending.
    destruct P. exists k, s, E. cbn [sweep]. split; auto. split; auto. split; [lia|]. split; auto. split; auto. split; auto. split; auto.
    intros Hm p i Hc. destruct (g_all0 eq_refl p) as [H|[]]; [apply Hc|]. apply g_swept0; auto.
  - unfold potential in Hpot; simpl in Hpot; lia.
  - specialize (HQ eq_refl). subst pending.
    destruct P. exists k, s, E. cbn [sweep]. split; auto. split; auto. split; [lia|]. split; auto. split; auto. split; auto. split; auto.
    intros Hm p i Hc. destruct (g_all0 eq_refl p) as [H|[]]; [apply Hc|]. apply g_swept0; auto.
  - destruct (step_l Hfuel _ _ _ _ _ _ _ _ _ P) as (pd2 & k2 & s2 & E2 & vst2 & v2 & queue2 & sw2 & -> & P2 & Q2 & D2 & V2 & Z2 & _).
    destruct (IH pd2 k2 s2 E2 vst2 v2 queue2 sw2 P2 Q2 ltac:(lia)) as (k' & s' & E' & E1 & H1 & H2 & H3 & H4 & H5 & H6 & H7).
    exists k', s', E'. split; [exact E1|]. split; auto. split; auto. split; auto. split; [congruence|]. split; auto.
Qed.

(** The first row that is close to another does not remain a representative. *)
Lemma sweep_first p0 : n * n + n < fuel -> (mp <= 1)%Z -> (exists q, close p0 q) -> (forall i j, i < p0 -> ~ close i j) ->
  forall m fu i s swept, i + m = p0 -> progress false 0 s (fun _ _ => False) (fun _ => false) n (seq i (n - i)) swept -> potential false s (seq i (n - i)) <= fu ->
  exists s', sweep eps mp fuel n dm fu s (fun _ => false) n (seq i (n - i)) = Ok s' /\ pa s' p0 <> p0.
Proof.
  intros Hfuel Hmp Hq Hleast. assert (Hp0 : p0 < n) by (destruct Hq as (q & Hq & _); auto).
  induction m as [|m IH]; intros fu i s swept Him P Hpot.
  - rewrite Nat.add_0_r in Him. subst i. replace (n - p0) with (S (n - S p0)) in * by lia. cbn [seq] in *.
    destruct fu as [|fu]; [unfold potential in Hpot; simpl in Hpot; lia|].
    assert (Hroot : pa s p0 = p0).
    { destruct (Nat.eq_dec (pa s p0) p0) as [|Hne]; auto. exfalso. pose proof (w_rank _ _ (i_wf _ _ _ (g_inv _ _ _ _ _ _ _ _ P)) p0 ltac:(rewrite (g_next _ _ _ _ _ _ _ _ P); auto) Hne) as H.
      pose proof (w_pa _ _ (i_wf _ _ _ (g_inv _ _ _ _ _ _ _ _ P)) p0 ltac:(rewrite (g_next _ _ _ _ _ _ _ _ P); auto)) as H'.
      pose proof (w_k _ _ (i_wf _ _ _ (g_inv _ _ _ _ _ _ _ _ P)) _ H'). lia. }
    destruct (step_l Hfuel _ _ _ _ _ _ _ _ _ P) as (pd2 & k2 & s2 & E2 & vst2 & v2 & queue2 & sw2 & -> & P2 & Q2 & D2 & V2 & Z2 & F2 & _).
    destruct (sweep_l Hfuel fu _ _ _ _ _ _ _ _ P2 Q2 ltac:(lia)) as (k' & s' & E' & E1 & _ & _ & _ & _ & _ & _ & H7).
    exists s'. split; auto. apply H7, F2; auto. destruct Hq as (q & Hq). exists q. split; auto. intros Hr. apply Hq.
    clear -Hr. assert (G : forall x y, rst (fun _ _ => False) x y -> x = y) by (induction 1; auto; [contradiction|congruence]). symmetry. apply G; auto.
  - replace (n - i) with (S (n - S i)) in * by lia. cbn [seq] in *. destruct fu as [|fu]; [unfold potential in Hpot; simpl in Hpot; lia|].
    destruct (step_l Hfuel _ _ _ _ _ _ _ _ _ P) as (pd2 & k2 & s2 & E2 & vst2 & v2 & queue2 & sw2 & -> & P2 & Q2 & D2 & V2 & Z2 & _ & N2).
    destruct N2 as (-> & -> & -> & Hz & Eq); [intros q; apply Hleast; lia|].
    assert (Hnn : isNil (seq (S i) (n - S i)) = false) by (destruct (n - S i) eqn:En; [lia|reflexivity]). rewrite Hnn in Eq.
    injection Eq as -> ->. destruct pd2.
    + exfalso. pose proof (g_rest _ _ _ _ _ _ _ _ P2) as Hr. cbn in Hr. lia.
    + apply (IH fu (S i) s2 sw2); auto; lia.
Qed.

Lemma refill_all : 0 < n -> refill n (fun _ => false) 0 = (seq 0 n, n).
Proof.
  intros Hn. unfold refill. rewrite Nat.sub_0_r.
  assert (G : forall m u q w, 0 < m -> fold_left (fun (st : list nat * nat) i => if false then st else (fst st ++ [i], S i)) (seq u m) (q, w) = (q ++ seq u m, u + m)).
  { induction m as [|m IH]; intros u q w Hm; [lia|]. cbn [seq fold_left fst]. destruct m as [|m]; [simpl; f_equal; lia|].
    rewrite IH by lia. rewrite <- app_assoc. f_equal. lia. }
  rewrite G by auto. reflexivity.
Qed.

Lemma sweep_start p0 s : n * n + 2 * n + 2 <= fuel -> (mp <= 1)%Z -> (exists q, close p0 q) -> (forall i j, i < p0 -> ~ close i j) ->
  INV 0 s (fun _ _ => False) -> unext s = n -> exists s', sweep eps mp fuel n dm fuel s (fun _ => false) 0 [0] = Ok s' /\ pa s' p0 <> p0.
Proof.
  intros Hf Hmp Hq Hleast HI Hn. assert (Hp0 : p0 < n) by (destruct Hq as (q & Hq & _); auto).
  assert (Hroots : roots n s <= n) by (unfold roots; rewrite <- (seq_length n 0) at 2; clear; generalize (seq 0 n); induction l as [|x l IH]; simpl; auto; destruct (pa s x =? x); simpl; lia).
  assert (Hroots' : n * roots n s <= n * n) by (apply Nat.mul_le_mono_l; auto).
  assert (P : progress true 0 s (fun _ _ => False) (fun _ => false) 0 [0] (fun _ => False)).
  { constructor; auto; try (intros; contradiction || discriminate). intros p [<-|[]]. lia. }
  assert (Efu : exists fu, fuel = S fu) by (exists (pred fuel); lia). destruct Efu as (fu & Efu).
  assert (Ef : sweep eps mp fuel n dm fuel s (fun _ => false) 0 [0] = sweep eps mp fuel n dm (S fu) s (fun _ => false) 0 [0]) by (rewrite <- Efu; auto).
  rewrite Ef. clear Ef.
  destruct (step_l ltac:(lia) _ _ _ _ _ _ _ _ _ P) as (pd2 & k2 & s2 & E2 & vst2 & v2 & queue2 & sw2 & Es & P2 & Q2 & D2 & V2 & Z2 & F2 & N2).
  assert (Hpot : potential true s [0] <= S fu) by (unfold potential; cbn [length]; lia).
  rewrite Es.
  destruct (Nat.eq_dec p0 0) as [->|Hne].
  - destruct (sweep_l ltac:(lia) fu _ _ _ _ _ _ _ _ P2 Q2 ltac:(lia)) as (k' & s' & E' & E1 & _ & _ & _ & _ & _ & _ & H7).
    exists s'. split; auto. apply H7, F2; auto.
    + destruct (Nat.eq_dec (pa s 0) 0) as [|Hn0]; auto. exfalso. pose proof (w_rank _ _ (i_wf _ _ _ HI) 0 ltac:(lia) Hn0).
      pose proof (w_k _ _ (i_wf _ _ _ HI) _ (w_pa _ _ (i_wf _ _ _ HI) 0 ltac:(lia))). lia.
    + destruct Hq as (q & Hq). exists q. split; auto. intros Hr. apply Hq.
      assert (G : forall x y, rst (fun _ _ => False) x y -> x = y) by (induction 1; auto; [contradiction|congruence]). symmetry. apply G; auto.
  - destruct N2 as (-> & -> & -> & Hz & Eq); [intros q; apply Hleast; lia|]. cbn [isNil] in Eq. rewrite refill_all in Eq by lia.
    injection Eq as -> ->. destruct pd2.
    + exfalso. pose proof (g_rest _ _ _ _ _ _ _ _ P2) as Hr. cbn in Hr. lia.
    + destruct (sweep_first p0 ltac:(lia) Hmp Hq Hleast p0 fu 0 s2 sw2) as (s' & E1 & H1); rewrite ?Nat.sub_0_r in *; auto; [lia|]. eauto.
Qed.
End Sweep.

(** ** The sets of a forest *)
Definition members (n fuel : nat) (s : uf) : list (list nat) := map (mlist fuel s) (filter (fun i => Nat.eqb (pa s i) i) (seq 0 n)).

Lemma members_l k n fuel s E : INV k s E -> unext s = n -> k < fuel ->
  Permutation (concat (members n fuel s)) (seq 0 n) /\ (forall g, In g (members n fuel s) -> g <> []) /\
  forall i j, i < n -> j < n -> ((exists g, In g (members n fuel s) /\ In i g /\ In j g) <-> rst E i j).
Proof.
  intros HI Hn Hk. pose proof (i_wf _ _ _ HI) as W. unfold members. set (roots := filter _ _).
  assert (Hroots : forall r, In r roots <-> r < unext s /\ pa s r = r).
  { intros r. unfold roots. rewrite filter_In, in_seq, Nat.eqb_eq, Hn. split; intros [? ?]; split; auto; lia. }
  assert (Hmem : forall r, In r roots -> NoDup (mlist fuel s r) /\ forall y, In y (mlist fuel s r) <-> y < unext s /\ leads s y r).
  { intros r Hr. apply Hroots in Hr as [? ?]. apply (i_mem _ _ _ HI); auto. }
  split; [|split].
  - apply NoDup_Permutation; [|apply seq_NoDup|].
    + apply NoDup_concat_map; [apply NoDup_filter, seq_NoDup|intros; apply Hmem; auto|].
      intros x y b Hx Hy Hbx Hby. apply (Hmem x Hx) in Hbx as [_ L1]. apply (Hmem y Hy) in Hby as [_ L2]. apply (leads_fun s b); auto.
    + intros y. rewrite <- flat_map_concat_map, in_flat_map, in_seq. split.
      * intros (r & Hr & Hy). apply Hmem in Hy; auto. lia.
      * intros Hy. assert (Hy' : y < unext s) by lia. destruct (leads_total k s W y Hy') as (r & L & Hr & _).
        exists r. assert (In r roots) by (apply Hroots; split; auto; eapply leads_isroot; eauto). split; auto. apply Hmem; auto.
  - intros g Hg. apply in_map_iff in Hg as (r & <- & Hr). destruct fuel; [lia|]. discriminate.
  - intros i j Li Lj. rewrite <- Hn in Li, Lj. split.
    + intros (g & Hg & Ha & Hb). apply in_map_iff in Hg as (r & <- & Hr).
      apply Hmem in Ha as [Ha La]; auto. apply Hmem in Hb as [Hb Lb]; auto. apply (i_rel _ _ _ HI i j r r); auto.
    + intros H. destruct (leads_total k s W i Li) as (r & L & Hr & _). destruct (leads_total k s W j Lj) as (r' & L' & _).
      assert (r = r') by (apply (i_rel _ _ _ HI i j r r'); auto). subst r'.
      exists (mlist fuel s r). assert (HR : In r roots) by (apply Hroots; split; auto; eapply leads_isroot; eauto).
      split; [apply in_map; auto|]. split; apply Hmem; auto.
Qed.

Lemma singletons_l n : INV 0 (singletons n) (fun _ _ => False) /\ unext (singletons n) = n /\ forall i, i < n -> vid (singletons n) i = Z.of_nat i.
Proof.
  unfold singletons.
  assert (G : forall m s, INV 0 s (fun _ _ => False) ->
    INV 0 (fold_left (fun s i => fst (makeSet s (Z.of_nat i))) (seq (unext s) m) s) (fun _ _ => False) /\
    unext (fold_left (fun s i => fst (makeSet s (Z.of_nat i))) (seq (unext s) m) s) = unext s + m /\
    (forall i, i < unext s -> vid (fold_left (fun s i => fst (makeSet s (Z.of_nat i))) (seq (unext s) m) s) i = vid s i) /\
    forall i, unext s <= i < unext s + m -> vid (fold_left (fun s i => fst (makeSet s (Z.of_nat i))) (seq (unext s) m) s) i = Z.of_nat i).
  { induction m as [|m IH]; intros s HI; cbn [seq fold_left].
    - split; auto. split; [lia|]. split; auto. intros; lia.
    - destruct (IH (fst (makeSet s (Z.of_nat (unext s)))) (INV_make _ _ _ _ HI)) as (H1 & H2 & H3 & H4). unfold makeSet in *. cbn [fst unext vid] in *.
      split; auto. split; [lia|]. split.
      + intros i Hi. rewrite H3 by lia. apply upd_diff. lia.
      + intros i Hi. destruct (Nat.eq_dec i (unext s)) as [->|]; [|apply H4; lia]. rewrite H3 by lia. apply upd_same. }
  destruct (G n newHeap INV_new) as (H1 & H2 & _ & H4). cbn [newHeap unext] in *. split; auto. split; auto. intros i Hi. apply H4. lia.
Qed.

(** ** Distances *)
Section Dist.
Context {A : arith}.

Lemma euclideanF_l (p q : list (F A)) : length p <= length q -> euclideanF p q = Ok (euclid p q).
Proof.
  intros H. unfold euclideanF, euclid, foldi.
  assert (G : forall (p q1 q2 : list (F A)) (s : F A), length p <= length q2 ->
    foldi_from (length q1) (fun i s u => v <- idx (q1 ++ q2) i; let l := fsub u v in Ok (fadd s (fmul l l))) p s =
    Ok (fold_left (fun s uv => fadd s (fmul (fsub (fst uv) (snd uv)) (fsub (fst uv) (snd uv)))) (combine p q2) s)).
  { clear. induction p as [|u p IH]; intros q1 q2 s H; cbn [foldi_from]; auto. destruct q2 as [|v q2]; [simpl in H; lia|].
    unfold idx at 1. rewrite nth_error_app2, Nat.sub_diag by lia. cbn [nth_error orPanic bind combine fold_left fst snd].
    specialize (IH (q1 ++ [v]) q2 (fadd s (fmul (fsub u v) (fsub u v))) ltac:(simpl in H; lia)).
    rewrite app_length in IH. cbn [length] in IH. rewrite <- app_assoc in IH. exact IH. }
  specialize (G p [] q (fz 0) H). cbn [app length] in G. rewrite G. reflexivity.
Qed.

Lemma map_nth_error_inv {T U} (f : T -> U) l : forall i y, nth_error (map f l) i = Some y -> exists x, nth_error l i = Some x /\ f x = y.
Proof. induction l as [|x l IH]; intros [|i] y H; simpl in *; try discriminate; eauto. injection H as <-. eauto. Qed.
Lemma filter_len {T} (f : T -> bool) l : length (filter f l) <= length l.
Proof. induction l as [|x l IH]; simpl; auto. destruct (f x); simpl; lia. Qed.

Lemma mapi_from_map {T U} (g : T -> U) (h : T -> res U) l : (forall x, In x l -> h x = Ok (g x)) -> forall i, mapi_from i (fun _ x => h x) l = Ok (map g l).
Proof.
  induction l as [|x l IH]; intros H i; cbn [mapi_from map]; auto. rewrite H by (left; auto). cbn [bind].
  rewrite IH by (intros; apply H; right; auto). reflexivity.
Qed.

Lemma distances_l m (data : list (list (F A))) : (forall row, In row data -> length row = m) ->
  distances data = Ok (map (fun a => map (fun b => euclid a b) data) data).
Proof.
  intros H. unfold distances, mapi. apply mapi_from_map. intros a Ha. apply mapi_from_map. intros b Hb.
  apply euclideanF_l. rewrite (H a), (H b); auto.
Qed.

Definition distMatrix (data : list (list Z)) : list (list (F A)) := map (fun a => map (fun b => euclid a b) (copyMatrixF data)) (copyMatrixF data).

Lemma internal_sweep m (data : list (list Z)) (eps : F A) mp fuel : (forall row, In row data -> length row = m) ->
  dbscanInternal fuel (copyMatrixF data) eps mp = sweep eps mp fuel (length data) (distMatrix data) fuel (singletons (length data)) (fun _ => false) 0 [0].
Proof.
  intros Hm. unfold dbscanInternal.
  assert (HL : length (@copyMatrixF A data) = length data) by (unfold copyMatrixF; apply map_length).
  rewrite (distances_l m).
  2: { intros row H. unfold copyMatrixF in H. apply in_map_iff in H as (r & <- & H). rewrite map_length; auto. }
  cbn [bind]. rewrite HL. reflexivity.
Qed.

Lemma dist_shape data : length (distMatrix data) = length data /\ forall row, In row (distMatrix data) -> length row = length data.
Proof.
  unfold distMatrix, copyMatrixF. split; [rewrite !map_length; auto|]. intros row H. apply in_map_iff in H as (a & <- & H). rewrite !map_length. auto.
Qed.

Lemma close_within (data : list (list Z)) (eps : F A) p i : close eps (length data) (distMatrix data) p i <-> within eps data p i.
Proof.
  unfold close, within, distMatrix. split.
  - intros (Hp & Hi & Hip & row & d & E1 & E2 & E3). apply map_nth_error_inv in E1 as (a & Ea & <-).
    apply map_nth_error_inv in E2 as (b & Eb & <-). unfold copyMatrixF in Ea, Eb.
    apply map_nth_error_inv in Ea as (a' & Ea & <-). apply map_nth_error_inv in Eb as (b' & Eb & <-). exists a', b'. auto.
  - intros (a & b & Ea & Eb & Hip & Hg).
    split; [apply nth_error_Some; congruence|]. split; [apply nth_error_Some; congruence|]. split; auto.
    exists (map (fun b => euclid (map fz a) b) (copyMatrixF data)), (euclid (map fz a) (map fz b)).
    split; [apply (map_nth_error (fun a => map (fun b => euclid a b) (copyMatrixF data))); unfold copyMatrixF; apply map_nth_error; auto|].
    split; auto. apply map_nth_error. unfold copyMatrixF. apply map_nth_error. auto.
Qed.

Lemma internal_l m (data : list (list Z)) (eps : F A) mp fuel : (forall row, In row data -> length row = m) -> data <> [] ->
  length data * length data + 2 * length data + 2 <= fuel ->
  exists k s E, dbscanInternal fuel (copyMatrixF data) eps mp = Ok s /\ INV k s E /\ k < fuel /\ unext s = length data /\
    (forall i, i < length data -> vid s i = Z.of_nat i) /\ (forall x y, E x y -> within eps data x y) /\
    ((mp <= 1)%Z -> forall i j, within eps data i j -> rst E i j).
Proof.
  intros Hm Hne Hf. rewrite (internal_sweep m) by auto. destruct (dist_shape data) as (L1 & L2).
  assert (Hc := close_within data eps). set (dm := distMatrix data) in *. set (n := length data) in *.
  assert (Hn : 0 < n) by (unfold n; destruct data; [congruence|simpl; lia]).
  destruct (singletons_l n) as (HI & HU & HV).
  assert (Hroots : roots n (singletons n) <= n) by (unfold roots; rewrite <- (seq_length n 0) at 2; apply filter_len).
  destruct (sweep_l eps mp fuel n dm L1 L2) with (fu := fuel) (pending := true) (k := 0) (s := singletons n) (E := fun _ _ : nat => False) (vst := fun _ : nat => false)
    (vindex := 0) (queue := [0]) (swept := fun _ : nat => False) as (k' & s' & E' & E1 & I1 & K1 & U1 & V1 & S1 & C1 & _); auto.
  - lia.
  - constructor; auto; try (intros; contradiction || discriminate).
    + simpl. apply Nat.mul_le_mono_l. auto.
    + intros p [<-|[]]. auto.
  - discriminate.
  - unfold potential. cbn [length]. assert (n * roots n (singletons n) <= n * n) by (apply Nat.mul_le_mono_l; auto). lia.
  - exists k', s', E'. split; auto. split; auto. split; [lia|]. split; auto. split; [intros i Hi; rewrite V1; auto|]. split.
    + intros x y H. apply Hc, S1; auto.
    + intros Hmp i j H. apply C1; auto. apply Hc; auto.
Qed.

Lemma internal_first m (data : list (list Z)) (eps : F A) mp fuel p0 : (forall row, In row data -> length row = m) ->
  length data * length data + 2 * length data + 2 <= fuel -> (mp <= 1)%Z ->
  (exists q, within eps data p0 q) -> (forall i j, i < p0 -> ~ within eps data i j) ->
  exists s, dbscanInternal fuel (copyMatrixF data) eps mp = Ok s /\ pa s p0 <> p0.
Proof.
  intros Hm Hf Hmp (q & Hq) Hl. rewrite (internal_sweep m) by auto. destruct (dist_shape data) as (L1 & L2). destruct (singletons_l (length data)) as (HI & HU & HV).
  apply (sweep_start eps mp fuel (length data) (distMatrix data) L1 L2 p0); auto.
  - exists q. apply close_within; auto.
  - intros i j Hi Hc. apply close_within in Hc. apply (Hl i j); auto.
Qed.

(** ** The clusters *)
Definition rowsOf (data : list (list Z)) (g : list nat) : rowmap := map (fun i => (i, nth i data [])) g.

Lemma copyTo_all m row : length row = m -> copyTo m row = row.
Proof. intros <-. unfold copyTo. rewrite firstn_all, Nat.sub_diag. apply app_nil_r. Qed.

Lemma cluster_l m data g : (forall row, In row data -> length row = m) -> forall cl0 : rowmap, NoDup (map fst cl0 ++ g) -> (forall i, In i g -> i < length data) ->
  foldr_ (fun cl l => row <- idxZ data l; Ok (rput cl (Z.to_nat l) (copyTo m row))) (map Z.of_nat g) cl0 = Ok (cl0 ++ rowsOf data g).
Proof.
  intros Hm. induction g as [|i g IH]; intros cl0 N Hg; cbn [map foldr_]; [rewrite app_nil_r; auto|].
  unfold idxZ. destruct (Z.ltb_spec (Z.of_nat i) 0); [lia|]. rewrite Nat2Z.id. unfold idx.
  assert (Hi : i < length data) by (apply Hg; left; auto).
  rewrite (nth_error_nth' data [] Hi). cbn [orPanic bind]. rewrite copyTo_all by (apply Hm, nth_In; auto).
  unfold rput. rewrite rdel_fresh.
  2: { intros e He Hei. apply NoDup_remove_2 in N. apply N. apply in_app_iff. left. rewrite <- Hei. apply in_map; auto. }
  rewrite IH; [rewrite <- app_assoc; auto| |intros; apply Hg; right; auto].
  rewrite map_app. cbn [map fst]. rewrite <- app_assoc. auto.
Qed.

Lemma dbscan_run m (data : list (list Z)) (eps : F A) mp fuel : (forall row, In row data -> length row = m) -> data <> [] ->
  length data * length data + 2 * length data + 2 <= fuel ->
  exists k s E, dbscanInternal fuel (copyMatrixF data) eps mp = Ok s /\ INV k s E /\ k < fuel /\ unext s = length data /\
    dbscan fuel data eps mp = Ok (map (rowsOf data) (members (length data) fuel s)) /\
    (forall i, i < length data -> vid s i = Z.of_nat i) /\
    (forall x y, E x y -> within eps data x y) /\ ((mp <= 1)%Z -> forall i j, within eps data i j -> rst E i j).
Proof.
  intros Hm Hne Hf. destruct (internal_l m data eps mp fuel Hm Hne Hf) as (k & s & E & E1 & HI & Hk & Hn & Hv & HE & HC).
  exists k, s, E. split; auto. split; auto. split; auto. split; auto. split; [|auto].
  unfold dbscan. rewrite E1. cbn [bind].
  assert (H0 : idx data 0 = Ok (nth 0 data [])) by (unfold idx; rewrite (nth_error_nth' data []); auto; destruct data; [congruence|simpl; lia]).
  rewrite H0. cbn [bind]. rewrite (Hm (nth 0 data [])) by (apply nth_In; destruct data; [congruence|simpl; lia]).
  pose proof (i_wf _ _ _ HI) as W. unfold members.
  assert (G : forall l C, (forall i, In i l -> i < length data) ->
    foldr_ (fun (C : list rowmap) i => if Nat.eqb (pa s i) i then chs <- ufVarids fuel s i;
      cl <- foldr_ (fun cl l => row <- idxZ data l; Ok (rput cl (Z.to_nat l) (copyTo m row))) chs []; Ok (C ++ [cl]) else Ok C) l C =
    Ok (C ++ map (rowsOf data) (map (mlist fuel s) (filter (fun i => Nat.eqb (pa s i) i) l)))).
  { induction l as [|i l IH]; intros C Hl; cbn [foldr_ filter]; [rewrite app_nil_r; auto|].
    assert (Hi : i < unext s) by (rewrite Hn; apply Hl; left; auto).
    destruct (Nat.eqb_spec (pa s i) i) as [Er|Er]; cbn [bind map].
    - pose proof (w_k _ _ W i Hi). rewrite (varids_mlist k s W) by (auto; lia). cbn [bind].
      assert (Hmem : NoDup (mlist fuel s i) /\ forall y, In y (mlist fuel s i) <-> y < unext s /\ leads s y i) by (apply (i_mem _ _ _ HI); auto).
      destruct Hmem as (N & Hmem).
      replace (map (vid s) (mlist fuel s i)) with (map Z.of_nat (mlist fuel s i)).
      2: { apply map_ext_in. intros y Hy. symmetry. apply Hv. apply Hmem in Hy. lia. }
      rewrite (cluster_l m data (mlist fuel s i) Hm []); [| auto |intros y Hy; apply Hmem in Hy; lia]. cbn [bind app].
      rewrite IH by (intros; apply Hl; right; auto). rewrite <- app_assoc. auto.
    - apply IH. intros; apply Hl; right; auto. }
  apply (G (seq 0 (length data)) []). intros i Hi. apply in_seq in Hi. lia.
Qed.

Lemma rowsOf_all data : rowsOf data (seq 0 (length data)) = instances data.
Proof.
  unfold rowsOf, instances.
  assert (G : forall (l0 l : list (list Z)), map (fun i => (i, nth i (l0 ++ l) [])) (seq (length l0) (length l)) = combine (seq (length l0) (length l)) l).
  { intros l0 l. revert l0. induction l as [|x l IH]; intros l0; cbn [length seq map combine]; auto.
    rewrite app_nth2, Nat.sub_diag by lia. cbn [nth]. f_equal.
    specialize (IH (l0 ++ [x])). rewrite app_length, <- app_assoc in IH. cbn [length] in IH. rewrite Nat.add_1_r in IH. exact IH. }
  apply (G [] data).
Qed.

Lemma together_l data gs i j : (forall g x, In g gs -> In x g -> x < length data) ->
  together (map (rowsOf data) gs) i j <-> exists g, In g gs /\ In i g /\ In j g.
Proof.
  intros Hg. unfold together. split.
  - intros (cl & x & y & Hcl & Hx & Hy). apply in_map_iff in Hcl as (g & <- & H). exists g. split; auto. unfold rowsOf in *.
    apply in_map_iff in Hx as (a & Ea & Ha). apply in_map_iff in Hy as (b & Eb & Hb). injection Ea as -> _. injection Eb as -> _. auto.
  - intros (g & H & Hi & Hj). exists (rowsOf data g), (nth i data []), (nth j data []). split; [apply in_map; auto|].
    unfold rowsOf. split; apply in_map_iff; eauto.
Qed.

Lemma dbscan_l m (data : list (list Z)) (eps : F A) mp fuel : (forall row, In row data -> length row = m) -> data <> [] ->
  length data * length data + 2 * length data + 2 <= fuel ->
  exists C, dbscan fuel data eps mp = Ok C /\ Permutation (concat C) (instances data) /\ (forall cl, In cl C -> cl <> []) /\
    (forall i j, together C i j -> clos_refl_sym_trans nat (within eps data) i j) /\
    ((mp <= 1)%Z -> forall i j, i < length data -> j < length data -> (together C i j <-> clos_refl_sym_trans nat (within eps data) i j)).
Proof.
  intros Hm Hne Hf. destruct (dbscan_run m data eps mp fuel Hm Hne Hf) as (k & s & E & _ & HI & Hk & Hn & E2 & _ & HE & HC).
  destruct (members_l k (length data) fuel s E HI Hn Hk) as (P & N & T). set (gs := members (length data) fuel s) in *.
  assert (Hg : forall g x, In g gs -> In x g -> x < length data).
  { intros g x H1 H2. assert (In x (concat gs)) by (apply in_concat; eauto). apply (Permutation_in _ P) in H. apply in_seq in H. lia. }
  exists (map (rowsOf data) gs). split; auto. split; [|split; [|split]].
  - unfold rowsOf at 1. rewrite <- concat_map, P. fold (rowsOf data (seq 0 (length data))). rewrite rowsOf_all. auto.
  - intros cl Hcl. apply in_map_iff in Hcl as (g & <- & H). apply N in H. destruct g; [congruence|discriminate].
  - intros i j H. apply together_l in H as (g & H1 & H2 & H3); auto. assert (rst E i j) by (apply T; eauto).
    eapply rst_sub; [|exact H]. intros a b Hab. constructor. auto.
  - intros Hmp i j Hi Hj. rewrite together_l, T by auto. split; apply rst_sub; intros a b Hab; [constructor; auto|auto].
Qed.

Lemma dbscan_empty fuel (eps : F A) mp : 0 < fuel -> dbscan fuel [] eps mp = Panic.
Proof. unfold dbscan, dbscanInternal. cbn. destruct fuel as [|[|fuel]]; [lia| |]; intros _; cbn; destruct (mp <=? 0)%Z; cbn; auto. Qed.
End Dist.

Lemma dbscan_partition_l {A : arith} m data (eps : F A) mp fuel :
  (forall row, In row data -> length row = m) -> data <> [] ->
  length data * length data + 2 * length data + 2 <= fuel ->
  exists C, dbscan fuel data eps mp = Ok C /\ Permutation (concat C) (instances data) /\ (forall cl, In cl C -> cl <> []) /\
    forall i j, together C i j -> clos_refl_sym_trans nat (within eps data) i j.
Proof. intros H1 H2 H3. destruct (dbscan_l m data eps mp fuel H1 H2 H3) as (C & E & P & N & S & _). eauto 6. Qed.
Lemma dbscan_components_l {A : arith} m data (eps : F A) mp fuel :
  (forall row, In row data -> length row = m) -> data <> [] ->
  length data * length data + 2 * length data + 2 <= fuel -> (mp <= 1)%Z ->
  exists C, dbscan fuel data eps mp = Ok C /\
    forall i j, i < length data -> j < length data -> (together C i j <-> clos_refl_sym_trans nat (within eps data) i j).
Proof. intros H1 H2 H3 H4. destruct (dbscan_l m data eps mp fuel H1 H2 H3) as (C & E & P & N & S & H). eauto. Qed.
