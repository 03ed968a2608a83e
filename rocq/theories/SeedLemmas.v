(** Seeds. *)
From Verif Require Import Base Res GoMap Arith Tables Classify InferLemmas Seed SeedSpec.
Local Open Scope nat_scope.

Section Lemmas.
Variable G : Type.
Variable src : Z -> G.
Variable intn : G -> nat -> nat * G.
Local Notation it g n c := (Nat.iter c (fun x => snd (intn x n)) g).

Lemma iter_next g n c : snd (intn (it g n c) n) = it g n (S c). Proof. reflexivity. Qed.

Lemma pick_ok g n : forall fuel c fdata, length fdata = n ->
  pickG G intn fuel (it g n c) fdata =
  match pick (stream intn g) fuel c fdata with Ok (l, row, c') => Ok (l, row, it g n c') | Panic => Panic | Fuel => Fuel end.
Proof.
  induction fuel as [|f IH]; intros c fdata Hn; cbn [pickG pick]; auto. rewrite Hn. destruct (n =? 0); auto.
  destruct (intn (it g n c) n) as [l g'] eqn:E.
  assert (Es : stream intn g c n = l) by (unfold stream; rewrite E; reflexivity). rewrite Es.
  assert (Eg : g' = it g n (S c)) by (rewrite <- iter_next, E; reflexivity).
  destruct (idx fdata l) as [[row|]| |]; cbn [bind]; auto; [rewrite Eg; reflexivity|]. rewrite Eg. apply IH; auto.
Qed.

Lemma set_len {X} (l : list X) x : forall i, length (set_nth i x l) = length l.
Proof. induction l as [|a l IH]; intros [|i]; simpl; auto. Qed.

Lemma mark_ok g n : forall fuel m c fdata, length fdata = n ->
  match mark (stream intn g) fuel m c fdata with
  | Ok r => exists c', markG G intn fuel m (it g n c) fdata = Ok (r, it g n c')
  | Panic => markG G intn fuel m (it g n c) fdata = Panic
  | Fuel => markG G intn fuel m (it g n c) fdata = Fuel
  end.
Proof.
  intros fuel. induction m as [|m IH]; intros c fdata Hn; cbn [markG mark]; [exists c; reflexivity|].
  rewrite (pick_ok g n) by auto. destruct (pick (stream intn g) fuel c fdata) as [[[l row] c1]| |]; cbn [bind fst snd]; auto.
  specialize (IH c1 (set_nth l None fdata)). rewrite set_len in IH. specialize (IH Hn).
  destruct (mark (stream intn g) fuel m c1 (set_nth l None fdata)) as [r| |]; cbn [bind].
  - destruct IH as (c' & ->). exists c'. reflexivity.
  - rewrite IH. reflexivity.
  - rewrite IH. reflexivity.
Qed.

Lemma partition_ok g fuel rows m nv :
  match partition (stream intn g) fuel rows m nv with
  | Ok x => exists g', partitionG G intn fuel g rows m nv = Ok (x, g')
  | Panic => partitionG G intn fuel g rows m nv = Panic
  | Fuel => partitionG G intn fuel g rows m nv = Fuel
  end.
Proof.
  unfold partition, partitionG. pose proof (mark_ok g (length rows) fuel m 0 (map Some rows) ltac:(apply map_length)) as H. cbn [Nat.iter nat_rect] in H.
  destruct (mark (stream intn g) fuel m 0 (map Some rows)) as [r| |]; cbn [bind].
  - destruct H as (c' & H). change (Nat.iter 0 _ g) with g in H. rewrite H. cbn [bind fst snd]. destruct (discard (sortInts (map fst (snd r))) (fst r)); cbn [bind]; eauto.
  - change (Nat.iter 0 _ g) with g in H. rewrite H. reflexivity.
  - change (Nat.iter 0 _ g) with g in H. rewrite H. reflexivity.
Qed.


Lemma first_l fuel st rows m nv s : (glrseed G st < 0)%Z -> (0 <= s)%Z ->
  outcome (partition (stream intn (src s)) fuel rows m nv) (parsePartitioned G src intn fuel st (rows, m, nv, s)).
Proof.
  intros H1 H2. unfold parsePartitioned, outcome. destruct (Z.ltb_spec s 0); [lia|]. destruct (Z.ltb_spec (glrseed G st) 0); [|lia]. cbn [glrand].
  pose proof (partition_ok (src s) fuel rows m nv) as P. destruct (partition (stream intn (src s)) fuel rows m nv) as [x| |].
  - destruct P as (g' & ->). cbn. eauto.
  - rewrite P. reflexivity.
  - rewrite P. reflexivity.
Qed.

Lemma keeps_none fuel cs : forall st xs st', Forall (fun c : call => (snd c < 0)%Z) cs -> parseMany G src intn fuel st cs = Ok (xs, st') -> (glrseed G st < 0)%Z -> (glrseed G st' < 0)%Z.
Proof.
  induction cs as [|[[[rows m] nv] s] cs IH]; intros st xs st' HF E H; cbn [parseMany] in E; [injection E as <- <-; auto|].
  inversion HF as [|? ? Hs HF']; subst. cbn in Hs. unfold parsePartitioned in E. destruct (Z.ltb_spec s 0); [|lia].
  destruct (partitionG G intn fuel (dflt G st) rows m nv) as [[x g]| |]; cbn [bind fst snd] in E; try discriminate.
  destruct (parseMany G src intn fuel (mkProc G (glrand G st) (glrseed G st) g) cs) as [[ys st2]| |] eqn:E2; cbn [bind fst snd] in E; try discriminate.
  injection E as <- <-. eapply IH; eauto.
Qed.

Lemma keeps_some fuel cs : forall st xs st', parseMany G src intn fuel st cs = Ok (xs, st') ->
  ((0 <= glrseed G st)%Z \/ Exists (fun c : call => (0 <= snd c)%Z) cs) -> (0 <= glrseed G st')%Z.
Proof.
  induction cs as [|[[[rows m] nv] s] cs IH]; intros st xs st' E H; cbn [parseMany] in E.
  { injection E as <- <-. destruct H as [H|H]; auto. inversion H. }
  unfold parsePartitioned in E. destruct (Z.ltb_spec s 0) as [Hs|Hs].
  - destruct (partitionG G intn fuel (dflt G st) rows m nv) as [[x g]| |]; cbn [bind fst snd] in E; try discriminate.
    destruct (parseMany G src intn fuel (mkProc G (glrand G st) (glrseed G st) g) cs) as [[ys st2]| |] eqn:E2; cbn [bind fst snd] in E; try discriminate.
    injection E as <- <-. eapply IH; eauto. cbn. destruct H as [H|H]; auto. inversion H; subst; auto. cbn in *. lia.
  - match type of E with context [partitionG G intn fuel ?g rows m nv] => destruct (partitionG G intn fuel g rows m nv) as [[x g']| |]; cbn [bind fst snd] in E; try discriminate end.
    match type of E with context [parseMany G src intn fuel ?p cs] => destruct (parseMany G src intn fuel p cs) as [[ys st2]| |] eqn:E2; cbn [bind fst snd] in E; try discriminate end.
    injection E as <- <-. eapply IH; eauto. left. cbn. destruct (Z.ltb_spec (glrseed G st) 0); cbn; lia.
Qed.

Lemma first_session_l fuel st cs xs st' rows m nv s : (glrseed G st < 0)%Z -> Forall (fun c : call => (snd c < 0)%Z) cs ->
  parseMany G src intn fuel st cs = Ok (xs, st') -> (0 <= s)%Z ->
  outcome (partition (stream intn (src s)) fuel rows m nv) (parsePartitioned G src intn fuel st' (rows, m, nv, s)).
Proof. intros. apply first_l; auto. eapply keeps_none; eauto. Qed.

Lemma ignored_l fuel st cs xs st' rows m nv s s' : Exists (fun c : call => (0 <= snd c)%Z) cs ->
  parseMany G src intn fuel st cs = Ok (xs, st') -> (0 <= s)%Z -> (0 <= s')%Z ->
  parsePartitioned G src intn fuel st' (rows, m, nv, s) = parsePartitioned G src intn fuel st' (rows, m, nv, s').
Proof.
  intros HE E Hs Hs'. pose proof (keeps_some fuel cs st xs st' E (or_intror HE)) as K. unfold parsePartitioned.
  destruct (Z.ltb_spec s 0); [lia|]. destruct (Z.ltb_spec s' 0); [lia|]. destruct (Z.ltb_spec (glrseed G st') 0); [lia|]. reflexivity.
Qed.

Lemma zero_draws fuel g rows nv : exists x, partitionG G intn fuel g rows 0 nv = Ok (x, g).
Proof. unfold partitionG. cbn. eauto. Qed.

Lemma seed_refuted_l fuel st rows m nv s s' x y : (glrseed G st < 0)%Z -> (0 <= s)%Z -> (0 <= s')%Z ->
  partition (stream intn (src s)) fuel rows m nv = Ok x -> partition (stream intn (src s')) fuel rows m nv = Ok y -> x <> y ->
  exists cs xs st' st1 st2, parseMany G src intn fuel st cs = Ok (xs, st') /\
    parsePartitioned G src intn fuel st (rows, m, nv, s') = Ok (y, st1) /\
    parsePartitioned G src intn fuel st' (rows, m, nv, s') = Ok (x, st2).
Proof.
  intros H Hs Hs' Ex Ey Hxy. exists [(rows, 0, nv, s)]. destruct (zero_draws fuel (src s) rows nv) as (z & Ez).
  pose proof (first_l fuel st rows m nv s' H Hs') as Fy. rewrite Ey in Fy. destruct Fy as (st1 & Fy).
  pose proof (partition_ok (src s) fuel rows m nv) as P. rewrite Ex in P. destruct P as (g' & P).
  exists [z], (mkProc G (src s) s (dflt G st)), st1, (mkProc G g' s (dflt G st)).
  split; [|split; auto].
  - cbn [parseMany]. unfold parsePartitioned. destruct (Z.ltb_spec s 0); [lia|]. destruct (Z.ltb_spec (glrseed G st) 0); [|lia]. cbn [glrand glrseed dflt]. rewrite Ez. reflexivity.
  - unfold parsePartitioned. destruct (Z.ltb_spec s' 0); [lia|]. cbn [glrseed glrand dflt]. destruct (Z.ltb_spec s 0); [lia|]. cbn [glrseed glrand dflt]. rewrite P. reflexivity.
Qed.

Lemma mark_len rnd fuel : forall m c fdata r, mark rnd fuel m c fdata = Ok r -> length (snd r) = m.
Proof.
  induction m as [|m IH]; intros c fdata r E; cbn [mark] in E; [injection E as <-; reflexivity|].
  destruct (pick rnd fuel c fdata) as [p| |]; cbn [bind] in E; try discriminate.
  destruct (mark rnd fuel m (snd p) (set_nth (fst (fst p)) None fdata)) as [q| |] eqn:E2; cbn [bind] in E; try discriminate.
  injection E as <-. cbn. f_equal. eapply IH; eauto.
Qed.
Lemma parse_len fuel st rows m nv s train test lbls st' : parsePartitioned G src intn fuel st (rows, m, nv, s) = Ok (train, test, lbls, st') -> length test = m /\ length lbls = m.
Proof.
  assert (P : forall g g', partitionG G intn fuel g rows m nv = Ok (train, test, lbls, g') -> length test = m /\ length lbls = m).
  { intros g g' E. pose proof (partition_ok g fuel rows m nv) as P. unfold partition in P.
    destruct (mark (stream intn g) fuel m 0 (map Some rows)) as [r| |] eqn:Em; cbn [bind] in P; [|congruence|congruence].
    destruct (discard (sortInts (map fst (snd r))) (fst r)); cbn [bind] in P; [|congruence|congruence].
    destruct P as (g1 & P). rewrite E in P. injection P as _ -> -> _. rewrite !map_length. split; eapply mark_len; eauto. }
  unfold parsePartitioned. intros E. destruct (s <? 0)%Z.
  - destruct (partitionG G intn fuel (dflt G st) rows m nv) as [[x g]| |] eqn:E1; cbn [bind fst snd] in E; try discriminate. injection E as -> _. eapply P; eauto.
  - match type of E with context [partitionG G intn fuel ?g rows m nv] => destruct (partitionG G intn fuel g rows m nv) as [[x g']| |] eqn:E1; cbn [bind fst snd] in E; try discriminate end.
    injection E as -> _. eapply P; eauto.
Qed.

Section Batch.
Context {A : arith}.

Lemma loop_bound (value : gmap -> res (F A)) v nclass lbls : forall test i st r,
  foldi_from i (fun i (st : list gmap * Z) row =>
      let (rows, corrects) := st in
      p <- imgPredict value v nclass row;
      l <- idx lbls i;
      Ok (rows ++ [del (fst p) v], if (snd p =? l)%Z then (corrects + 1)%Z else corrects)) test st = Ok r ->
  (snd st <= snd r <= snd st + Z.of_nat (length test))%Z.
Proof.
  induction test as [|row test IH]; intros i [rs c] r E; cbn [foldi_from] in E; [injection E as <-; cbn; lia|].
  destruct (imgPredict value v nclass row) as [p| |]; cbn [bind] in E; try discriminate.
  destruct (idx lbls i) as [l| |]; cbn [bind] in E; try discriminate. apply IH in E. cbn [snd length] in *. destruct (snd p =? l)%Z; lia.
Qed.
Lemma classify_bound (value : gmap -> res (F A)) vars test lbls c t : imgClassify value vars test lbls = Ok (c, t) -> t = Z.of_nat (length test) /\ (0 <= c <= t)%Z.
Proof.
  unfold imgClassify. intros E. destruct (orPanic (get vars (Z.of_nat (length vars) - 1))) as [n| |]; cbn [bind] in E; try discriminate.
  destruct (n <? 0)%Z; try discriminate. destruct (imgLoop value (Z.of_nat (length vars) - 1) (Z.to_nat n) test lbls) as [r| |] eqn:E1; cbn [bind] in E; try discriminate.
  destruct (imgReps (Z.to_nat n) (fst r) lbls); cbn [bind] in E; try discriminate. injection E as <- <-. split; auto. apply loop_bound in E1. cbn [snd] in E1. lia.
Qed.

Variable learn : list (option gmap) -> gmap -> res (F A).
Variables (vars : list (Z * Z)) (rows : list gmap) (m : nat) (rseed : Z).


Lemma batch_l fuel : forall its st c t c' t' st', batchLoop G src intn learn fuel st vars rows m rseed its c t = Ok (c', t', st') ->
  exists xs cts, parseMany G src intn fuel st (repeat (rows, m, length vars, rseed) its) = Ok (xs, st') /\
    Forall2 (fun (x : split) ct => imgClassify (learn (fst (fst x))) vars (snd (fst x)) (snd x) = Ok ct) xs cts /\
    c' = (c + sumZ (map fst cts))%Z /\ t' = (t + Z.of_nat (its * m))%Z /\ (0 <= c' - c <= t' - t)%Z.
Proof.
  induction its as [|its IH]; intros st c t c' t' st' E; cbn [batchLoop] in E.
  - injection E as <- <- <-. exists [], []. cbn. repeat split; auto; lia.
  - destruct (parsePartitioned G src intn fuel st (rows, m, length vars, rseed)) as [[[[train test] lbls] st1]| |] eqn:E1; cbn [bind fst snd] in E; try discriminate.
    destruct (imgClassify (learn train) vars test lbls) as [[c1 t1]| |] eqn:E2; cbn [bind fst snd] in E; try discriminate.
    destruct (IH _ _ _ _ _ _ E) as (xs & cts & EP & HF & -> & -> & Hb). destruct (classify_bound _ _ _ _ _ _ E2) as (Ht & Hc).
    destruct (parse_len _ _ _ _ _ _ _ _ _ _ E1) as (Hl & _).
    exists ((train, test, lbls) :: xs), ((c1, t1) :: cts). cbn [repeat parseMany]. rewrite E1. cbn [bind fst snd]. rewrite EP. cbn [bind fst snd]. split; [reflexivity|].
    split; [constructor; auto|]. cbn [map fst sumZ fold_right]. unfold sumZ in *. split; [lia|]. rewrite Ht, Hl. split; [|lia]. cbn [Nat.mul]. lia.
Qed.


Lemma batch_go fuel : (0 <= rseed)%Z -> forall its st st' c t, (0 <= glrseed G st)%Z -> (0 <= glrseed G st')%Z -> glrand G st = glrand G st' ->
  same_out (batchLoop G src intn learn fuel st vars rows m rseed its c t) (batchLoop G src intn learn fuel st' vars rows m rseed its c t).
Proof.
  intros Hs. induction its as [|its IH]; intros st st' c t H1 H2 H3; cbn [batchLoop]; [reflexivity|].
  unfold parsePartitioned. destruct (Z.ltb_spec rseed 0); [lia|]. destruct (Z.ltb_spec (glrseed G st) 0); [lia|]. destruct (Z.ltb_spec (glrseed G st') 0); [lia|].
  rewrite H3. destruct (partitionG G intn fuel (glrand G st') rows m (length vars)) as [[[[train test] lbls] g]| |]; cbn [bind fst snd]; try exact Logic.I.
  destruct (imgClassify (learn train) vars test lbls) as [ct| |]; cbn [bind]; try exact Logic.I. apply IH; auto.
Qed.

Lemma batch_same_l fuel st st' its : (0 <= rseed)%Z -> (glrseed G st < 0)%Z -> (glrseed G st' < 0)%Z ->
  same_out (imgBatchClassify G src intn learn fuel st vars rows m rseed its) (imgBatchClassify G src intn learn fuel st' vars rows m rseed its).
Proof.
  intros Hs H1 H2. unfold imgBatchClassify. destruct its as [|its]; cbn [batchLoop]; [reflexivity|].
  unfold parsePartitioned. destruct (Z.ltb_spec rseed 0); [lia|]. destruct (Z.ltb_spec (glrseed G st) 0); [|lia]. destruct (Z.ltb_spec (glrseed G st') 0); [|lia]. cbn [glrand].
  destruct (partitionG G intn fuel (src rseed) rows m (length vars)) as [[[[train test] lbls] g]| |]; cbn [bind fst snd]; try exact Logic.I.
  destruct (imgClassify (learn train) vars test lbls) as [ct| |]; cbn [bind]; try exact Logic.I. apply batch_go; auto.
Qed.
End Batch.
End Lemmas.

Lemma batch_counts_l (G : Type) (src : Z -> G) (intn : G -> nat -> nat * G) (A : arith) (learn : list (option gmap) -> gmap -> res (F A))
  vars rows m rseed fuel its st c t st' :
  imgBatchClassify G src intn learn fuel st vars rows m rseed its = Ok (c, t, st') ->
  exists xs cts, parseMany G src intn fuel st (repeat (rows, m, length vars, rseed) its) = Ok (xs, st') /\
    Forall2 (fun (x : split) ct => imgClassify (learn (fst (fst x))) vars (snd (fst x)) (snd x) = Ok ct) xs cts /\
    c = sumZ (map fst cts) /\ t = Z.of_nat (its * m) /\ (0 <= c <= t)%Z.
Proof.
  intros E. unfold imgBatchClassify in E. destruct (batch_l G src intn learn vars rows m rseed fuel its st 0%Z 0%Z c t st' E) as (xs & cts & H1 & H2 & -> & -> & H3).
  exists xs, cts. repeat split; auto; lia.
Qed.

Definition walk (g : Z) (n : nat) : nat * Z := (Z.to_nat (g mod Z.of_nat n), (g + 1)%Z).
Definition threeRows : list gmap := [[(0, 5); (1, 0)]; [(0, 6); (1, 1)]; [(0, 7); (1, 0)]]%Z.
(** The values of a network that prefers class 0. *)
Definition zeroClass (train : list (option gmap)) (row : gmap) : res (F ZA) := Ok (match get row 1 with Some 0 => 1 | _ => 0 end)%Z.
