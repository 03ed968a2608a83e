(** Executions of BufferedPGMFToData. *)
From Coq Require Import Ascii String.
From Verif Require Import Base Res GoMap TopoLemmas TextLemmas Conc ConcSpec ConcLemmas Img ImgSpec ImgLemmas ImgConc ImgConcSpec.
Local Open Scope string_scope.
Local Open Scope Z_scope.

Lemma set_inv {T} (l : list T) i x j y : nth_error (set_nth i x l) j = Some y -> (j = i /\ y = x) \/ (j <> i /\ nth_error l j = Some y).
Proof.
  intros H. destruct (Nat.eq_dec j i) as [->|Hn].
  - left. split; auto. assert (i < List.length (set_nth i x l))%nat by (apply nth_error_Some; congruence). rewrite set_nth_length in *.
    rewrite nth_error_set_nth_same in H by auto. congruence.
  - right. rewrite nth_error_set_nth_diff in H by auto. auto.
Qed.

(** What a step of the queue does to the running tasks. *)
Lemma step_cases n q q' : step n q q' ->
  (finished q' = finished q /\ (forall j y, at_t q j TRunning y -> at_t q' j TRunning y)) \/
  (exists j x, at_t q j TRunning x /\ finished q' = (finished q ++ [x])%list /\ forall j' y, at_t q j' TRunning y -> j' <> j -> at_t q' j' TRunning y).
Proof.
  assert (K : forall (s : state) j0 t j y p x, at_t s j0 p x -> p <> TRunning -> nth_error (tasks s) j = Some (mkTask TRunning y) ->
    nth_error (set_nth j0 t (tasks s)) j = Some (mkTask TRunning y)).
  { unfold at_t. intros s j0 t j y p x H Hp E. rewrite nth_error_set_nth_diff; auto. intros ->. congruence. }
  destruct 1; try (left; split; [reflexivity|unfold at_t; intros j' y' E; cbn [tasks set_caller set_task set_locked set_k set_wg]; auto; fail]);
    try (left; split; [reflexivity|]; unfold at_t; intros j' y' E; cbn [tasks set_caller set_task set_locked set_k set_wg]; eapply K; eauto; discriminate).
  - left. split; [reflexivity|]. unfold at_t. intros j' y' E. cbn [tasks set_caller]. rewrite nth_error_app1; auto. apply nth_error_Some. congruence.
  - right. exists j, x. split; auto. split; auto. unfold at_t in *. intros j' y E Hn. cbn [tasks set_task]. rewrite nth_error_set_nth_diff; auto.
Qed.

Definition holding (p : bpc) : bool := match p with BOpen | BWrite _ | BUnlock => true | _ => false end.
Definition written (p : bpc) : bool := match p with BUnlock | BEnd => true | _ => false end.

Section Run.
Context (n : Z) (files : list (string * Z)) (head : string).

Definition rowAt (x : nat) : string := match nth_error files x with Some fl => pgmRow fl | None => "" end.

Record binv (s : bstate) : Prop := {
  b_len : List.length (bodies s) = List.length files;
  b_mu : forall x p, nth_error (bodies s) x = Some p -> holding p = true -> mutex s = true;
  b_one : forall x y p r, nth_error (bodies s) x = Some p -> nth_error (bodies s) y = Some r -> holding p = true -> holding r = true -> x = y;
  b_held : mutex s = true -> exists x p, nth_error (bodies s) x = Some p /\ holding p = true;
  b_run : forall x p, nth_error (bodies s) x = Some p -> p <> BLock -> p <> BEnd -> exists j, at_t (queue s) j TRunning x;
  b_fin : forall x, In x (finished (queue s)) -> nth_error (bodies s) x = Some BEnd;
  b_vals : forall x v, nth_error (bodies s) x = Some (BVals v) -> exists fl, nth_error files x = Some fl /\ v = fileVals fl;
  b_out : exists order part, NoDup order /\ (forall x, In x order <-> exists p, nth_error (bodies s) x = Some p /\ written p = true) /\
    out s = head ++ prints rowAt order ++ part /\
    (forall x rest, nth_error (bodies s) x = Some (BWrite rest) ->
       rest <> [] /\ exists fl pre, nth_error files x = Some fl /\ fileVals fl = (pre ++ rest)%list /\ part = prints printVal pre) /\
    ((forall x rest, nth_error (bodies s) x <> Some (BWrite rest)) -> part = "") }.

Lemma bodies_initial x p : nth_error (bodies (binitial files head)) x = Some p -> p = BLock.
Proof. cbn [binitial bodies]. rewrite nth_error_map. destruct (nth_error files x); [|discriminate]. cbn. congruence. Qed.
Lemma binv_initial : binv (binitial files head).
Proof.
  constructor.
  - cbn [binitial bodies]. apply map_length.
  - intros x p H. rewrite (bodies_initial x p H). discriminate.
  - intros x y p r H _ Hp. rewrite (bodies_initial x p H) in Hp. discriminate.
  - discriminate.
  - intros x p H Hp. rewrite (bodies_initial x p H) in Hp. congruence.
  - intros x [].
  - intros x v H. apply bodies_initial in H. discriminate.
  - exists [], "". split; [constructor|]. split; [|split; [|split]].
    + intros x. split; [intros []|]. intros (p & H & Hp). rewrite (bodies_initial x p H) in Hp. discriminate.
    + cbn [binitial out]. unfold prints. cbn [map String.concat append]. rewrite append_nil. auto.
    + intros x rest H. apply bodies_initial in H. discriminate.
    + auto.
Qed.

(** A step of the function of task [x], which does not end a row. *)
Ltac setc H := let Eb := fresh in
  apply set_inv in H as [(-> & Eb)|(? & H)]; [lazymatch type of Eb with ?p = _ => tryif is_var p then subst p else idtac end|].
Lemma binv_step s s' : binv s -> bstep n files s s' -> binv s'.
Proof.
  intros [Hl Hmu Hone Hheld Hrun Hfin Hvals (order & part & Ho1 & Ho2 & Ho3 & Ho4 & Ho5)] Hst.
  destruct Hst as [q q' bs mu o Hs Hf|q q' bs mu o x Hs Hf Hx|q bs o j x Hr Hx|q bs mu o j x Hr Hx|q bs mu o j x fl Hr Hx Hfl|q bs o j x vals Hr Hx|q bs mu o j x v u t Hr Hx|q bs mu o j x v Hr Hx|q bs mu o j x Hr Hx];
    cbn [queue bodies mutex out] in *.
  - (* queue *)
    destruct (step_cases n q q' Hs) as [(_ & Hk)|(j & x & _ & Hf' & _)].
    2:{ rewrite Hf in Hf'. apply (f_equal (@List.length nat)) in Hf'. rewrite app_length in Hf'. cbn in Hf'. lia. }
    constructor; cbn [queue bodies mutex out]; auto.
    + intros y p E H1 H2. destruct (Hrun y p E H1 H2) as (j & Hj). exists j. auto.
    + rewrite Hf. auto.
    + exists order, part. auto.
  - (* return *)
    destruct (step_cases n q q' Hs) as [(Hf' & _)|(j & x' & Hj & Hf' & Hk)].
    { rewrite Hf' in Hf. apply (f_equal (@List.length nat)) in Hf. rewrite app_length in Hf. cbn in Hf. lia. }
    rewrite Hf in Hf'. apply app_inj_tail in Hf' as (_ & <-).
    constructor; cbn [queue bodies mutex out]; auto.
    + intros y p E H1 H2. destruct (Hrun y p E H1 H2) as (j' & Hj'). exists j'. apply Hk; auto. intros ->. unfold at_t in *. congruence.
    + rewrite Hf. intros y Hy. apply in_app_or in Hy as [Hy|[<-|[]]]; auto.
    + exists order, part. auto.
  - (* lock *)
    constructor; cbn [queue bodies mutex out]; auto.
    + rewrite set_nth_length. auto.
    + intros y z p r E1 E2 H1 H2. setc E1; setc E2; auto; [specialize (Hmu _ _ E2 H2)|specialize (Hmu _ _ E1 H1)|specialize (Hmu _ _ E1 H1)]; discriminate.
    + intros _. exists x, BOpen. split; auto. apply nth_error_set_nth_same, nth_error_Some. congruence.
    + intros y p E H1 H2. setc E; eauto.
    + intros y Hy. destruct (Nat.eq_dec y x) as [->|]; [rewrite (Hfin x Hy) in Hx; discriminate|]. rewrite nth_error_set_nth_diff; auto.
    + intros y v E. setc E; eauto. discriminate.
    + exists order, part. split; auto. split; [|split; [auto|split]].
      * intros y. rewrite Ho2. split; intros (p & E & Hp).
        -- exists p. split; auto. rewrite nth_error_set_nth_diff; auto. intros ->. rewrite Hx in E. injection E as <-. discriminate.
        -- setc E; [discriminate|eauto].
      * intros y rest E. setc E; [discriminate|eauto].
      * intros H. apply Ho5. intros y rest E. apply (H y rest). rewrite nth_error_set_nth_diff; auto. intros ->. congruence.
  - (* open *)
    constructor; cbn [queue bodies mutex out]; auto.
    + rewrite set_nth_length. auto.
    + intros y p E Hp. setc E; [discriminate|]. exfalso. apply H. eapply Hone; eauto.
    + intros y z p r E1 E2 H1 H2. setc E1; [discriminate|]. setc E2; [discriminate|]. eauto.
    + discriminate.
    + intros y p E H1 H2. setc E; eauto.
    + intros y Hy. destruct (Nat.eq_dec y x) as [->|]; [rewrite (Hfin x Hy) in Hx; discriminate|]. rewrite nth_error_set_nth_diff; auto.
    + intros y v E. setc E; eauto. discriminate.
    + exists order, part. split; auto. split; [|split; [auto|split]].
      * intros y. rewrite Ho2. split; intros (p & E & Hp).
        -- exists p. split; auto. rewrite nth_error_set_nth_diff; auto. intros ->. rewrite Hx in E. injection E as <-. discriminate.
        -- setc E; [discriminate|eauto].
      * intros y rest E. setc E; [discriminate|eauto].
      * intros H. apply Ho5. intros y rest E. apply (H y rest). rewrite nth_error_set_nth_diff; auto. intros ->. congruence.
  - (* read *)
    constructor; cbn [queue bodies mutex out]; auto.
    + rewrite set_nth_length. auto.
    + intros y p E Hp. setc E; [discriminate|eauto].
    + intros y z p r E1 E2 H1 H2. setc E1; [discriminate|]. setc E2; [discriminate|]. eauto.
    + intros Hm. destruct (Hheld Hm) as (y & p & E & Hp). exists y, p. split; auto. rewrite nth_error_set_nth_diff; auto. intros ->. rewrite Hx in E. injection E as <-. discriminate.
    + intros y p E H1 H2. setc E; eauto.
    + intros y Hy. destruct (Nat.eq_dec y x) as [->|]; [rewrite (Hfin x Hy) in Hx; discriminate|]. rewrite nth_error_set_nth_diff; auto.
    + intros y v E. apply set_inv in E as [(-> & E)|(? & E)]; eauto. injection E as ->. eauto.
    + exists order, part. split; auto. split; [|split; [auto|split]].
      * intros y. rewrite Ho2. split; intros (p & E & Hp).
        -- exists p. split; auto. rewrite nth_error_set_nth_diff; auto. intros ->. rewrite Hx in E. injection E as <-. discriminate.
        -- setc E; [discriminate|eauto].
      * intros y rest E. setc E; [discriminate|eauto].
      * intros H. apply Ho5. intros y rest E. apply (H y rest). rewrite nth_error_set_nth_diff; auto. intros ->. congruence.
  - (* lock2 *)
    destruct (Hvals x vals Hx) as (fl & Efl & ->).
    assert (Hp : part = "").
    { apply Ho5. intros y rest E. specialize (Hmu _ _ E eq_refl). discriminate. }
    constructor; cbn [queue bodies mutex out]; auto.
    + rewrite set_nth_length. auto.
    + intros y z p r E1 E2 H1 H2. setc E1; setc E2; auto; [specialize (Hmu _ _ E2 H2)|specialize (Hmu _ _ E1 H1)|specialize (Hmu _ _ E1 H1)]; discriminate.
    + intros _. eexists x, _. split; [apply nth_error_set_nth_same, nth_error_Some; congruence|]. auto.
    + intros y p E H1 H2. setc E; eauto.
    + intros y Hy. destruct (Nat.eq_dec y x) as [->|]; [rewrite (Hfin x Hy) in Hx; discriminate|]. rewrite nth_error_set_nth_diff; auto.
    + intros y v E. setc E; eauto. discriminate.
    + exists order, part. split; auto. split; [|split; [auto|split]].
      * intros y. rewrite Ho2. split; intros (p & E & Hp').
        -- exists p. split; auto. rewrite nth_error_set_nth_diff; auto. intros ->. rewrite Hx in E. injection E as <-. discriminate.
        -- setc E; [discriminate|eauto].
      * intros y rest E. apply set_inv in E as [(-> & E)|(? & E)]; [|eauto]. injection E as ->. split.
        -- unfold fileVals. intros E. symmetry in E. apply app_cons_not_nil in E. destruct E.
        -- exists fl, []. auto.
      * intros H. exfalso. apply (H x (fileVals fl)). apply nth_error_set_nth_same, nth_error_Some. congruence.
  - (* write *)
    destruct (Ho4 x _ Hx) as (_ & fl & pre & Efl & Ev & Hpart).
    constructor; cbn [queue bodies mutex out]; auto.
    + rewrite set_nth_length. auto.
    + intros y p E Hp. setc E; eauto.
    + intros y z p r E1 E2 H1 H2. setc E1; setc E2; eauto.
    + intros Hm. eexists x, _. split; [apply nth_error_set_nth_same, nth_error_Some; congruence|]. auto.
    + intros y p E H1 H2. setc E; eauto.
    + intros y Hy. destruct (Nat.eq_dec y x) as [->|]; [rewrite (Hfin x Hy) in Hx; discriminate|]. rewrite nth_error_set_nth_diff; auto.
    + intros y w E. setc E; eauto. discriminate.
    + exists order, (part ++ writeVal v false). split; auto. split; [|split; [|split]].
      * intros y. rewrite Ho2. split; intros (p & E & Hp').
        -- exists p. split; auto. rewrite nth_error_set_nth_diff; auto. intros ->. rewrite Hx in E. injection E as <-. discriminate.
        -- setc E; [discriminate|eauto].
      * rewrite Ho3, !append_ass. auto.
      * intros y rest E. apply set_inv in E as [(-> & E)|(Hne & E)].
        -- injection E as ->. split; [discriminate|]. exists fl, (pre ++ [v])%list. split; auto. split; [rewrite <- app_assoc; auto|].
           rewrite prints_app, Hpart. unfold writeVal, prints at 2, printVal. reflexivity.
        -- exfalso. apply Hne. eapply Hone; eauto.
      * intros H. exfalso. apply (H x (u :: t)). apply nth_error_set_nth_same, nth_error_Some. congruence.
  - (* last *)
    destruct (Ho4 x _ Hx) as (_ & fl & pre & Efl & Ev & Hpart).
    constructor; cbn [queue bodies mutex out]; auto.
    + rewrite set_nth_length. auto.
    + intros y p E Hp. setc E; eauto.
    + intros y z p r E1 E2 H1 H2. setc E1; setc E2; eauto.
    + intros Hm. eexists x, _. split; [apply nth_error_set_nth_same, nth_error_Some; congruence|]. auto.
    + intros y p E H1 H2. setc E; eauto.
    + intros y Hy. destruct (Nat.eq_dec y x) as [->|]; [rewrite (Hfin x Hy) in Hx; discriminate|]. rewrite nth_error_set_nth_diff; auto.
    + intros y w E. setc E; eauto. discriminate.
    + assert (Hnin : ~ In x order) by (rewrite Ho2; intros (p & E & Hp); rewrite Hx in E; injection E as <-; discriminate).
      exists (order ++ [x])%list, "". split; [|split; [|split; [|split]]].
      * apply NoDup_app_intro; auto; [repeat constructor; auto|]. intros y Hy [<-|[]]. auto.
      * intros y. rewrite in_app_iff, Ho2. split.
        -- intros [(p & E & Hp)|[<-|[]]].
           ++ exists p. split; auto. rewrite nth_error_set_nth_diff; auto. intros ->. rewrite Hx in E. injection E as <-. discriminate.
           ++ exists BUnlock. split; auto. apply nth_error_set_nth_same, nth_error_Some. congruence.
        -- intros (p & E & Hp). setc E; [right; left; auto|left; eauto].
      * rewrite Ho3, !append_ass, prints_app, append_nil. f_equal. f_equal.
        change (prints rowAt [x]) with (rowAt x). unfold rowAt. rewrite Efl. unfold pgmRow. unfold fileVals in Ev.
        apply app_inj_tail in Ev as (-> & <-). rewrite Hpart. auto.
      * intros y rest E. setc E; [discriminate|]. exfalso. apply H. eapply Hone; eauto.
      * auto.
  - (* unlock *)
    assert (Hnw : forall y rest, nth_error bs y <> Some (BWrite rest)).
    { intros y rest E. assert (y = x) by (eapply Hone; eauto). subst. congruence. }
    constructor; cbn [queue bodies mutex out]; auto.
    + rewrite set_nth_length. auto.
    + intros y p E Hp. setc E; [discriminate|]. exfalso. apply H. eapply Hone; eauto.
    + intros y z p r E1 E2 H1 H2. setc E1; [discriminate|]. setc E2; [discriminate|]. eauto.
    + discriminate.
    + intros y p E H1 H2. setc E; [congruence|eauto].
    + intros y Hy. destruct (Nat.eq_dec y x) as [->|]; [apply nth_error_set_nth_same, nth_error_Some; congruence|]. rewrite nth_error_set_nth_diff; auto.
    + intros y v E. setc E; eauto. discriminate.
    + exists order, part. split; auto. split; [|split; [auto|split]].
      * intros y. rewrite Ho2. split; intros (p & E & Hp).
        -- destruct (Nat.eq_dec y x) as [->|]; [exists BEnd; split; auto; apply nth_error_set_nth_same, nth_error_Some; congruence|].
           exists p. split; auto. rewrite nth_error_set_nth_diff; auto.
        -- setc E; eauto.
      * intros y rest E. setc E; [discriminate|]. exfalso. eapply Hnw; eauto.
      * auto.
Qed.

Lemma binv_steps m s s' : bsteps n files m s s' -> binv s -> binv s'.
Proof. induction 1 as [s|m s s1 s2 H IH Hs]; auto. intros I. exact (binv_step s1 s2 (IH I) Hs). Qed.
Lemma project m s : bsteps n files m (binitial files head) s -> exists m', steps n m' (initial [(seq 0 (List.length files), true)]) (queue s).
Proof.
  intros H. remember (binitial files head) as s0. induction H as [s|m s s1 s2 H IH Hs]; subst.
  - exists 0%nat. constructor.
  - destruct (IH eq_refl) as (m' & Hm). destruct Hs; cbn [queue] in *; eauto; exists (S m'); econstructor; eauto.
Qed.

(** The file when the function returns. *)
Lemma nodup_seq order N : NoDup order -> (forall x, In x order <-> (x < N)%nat) -> Permutation (seq 0 N) order.
Proof. intros H1 H2. apply NoDup_Permutation; auto using seq_NoDup. intros x. rewrite H2, in_seq. lia. Qed.
Lemma files_seq (fs : list (string * Z)) : map (nth_error fs) (seq 0 (List.length fs)) = map Some fs.
Proof. induction fs as [|f fs IH]; auto. cbn [List.length seq map nth_error]. f_equal. rewrite <- seq_shift, map_map. exact IH. Qed.
Lemma perm_some {T} (l : list T) l' : Permutation (map Some l) l' -> exists r, l' = map Some r /\ Permutation l r.
Proof.
  intros H. exists (flat_map (fun o => match o with Some a => [a] | None => [] end) l').
  assert (Hin : forall o, In o l' -> o <> None).
  { intros o Ho. apply Permutation_sym in H. apply (Permutation_in _ H) in Ho. apply in_map_iff in Ho as (a & <- & _). discriminate. }
  split.
  - clear H. induction l' as [|[a|] l' IH]; auto.
    + cbn [flat_map app map]. f_equal. apply IH. intros; apply Hin; right; auto.
    + exfalso. apply (Hin None); [left|]; auto.
  - apply (Permutation_flat_map (fun o : option T => match o with Some a => [a] | None => [] end)) in H.
    assert (E : flat_map (fun o : option T => match o with Some a => [a] | None => [] end) (map Some l) = l) by (clear; induction l as [|a l IH]; auto; cbn [map flat_map app]; f_equal; auto).
    rewrite E in H. auto.
Qed.
Lemma prints_order order : forall rest, map (nth_error files) order = map Some rest -> prints rowAt order = prints pgmRow rest.
Proof.
  induction order as [|x order IH]; intros [|fl rest] E; try discriminate; auto. cbn [map] in E. injection E as E1 E2.
  rewrite !prints_cons, (IH rest E2). unfold rowAt. rewrite E1. auto.
Qed.
Lemma buffered_out_l m s : 1 <= n -> bsteps n files m (binitial files head) s -> returned s ->
  exists rest, Permutation files rest /\ out s = head ++ prints pgmRow rest.
Proof.
  intros Hn H (td & w & Hd). pose proof (binv_steps _ _ _ H binv_initial) as [Hl _ _ _ _ Hfin _ (order & part & Ho1 & Ho2 & Ho3 & Ho4 & Ho5)].
  destruct (project _ _ H) as (m' & Hm). destruct (wait_l n _ m' (queue s) Hn Hm (ex_intro _ td (ex_intro _ w Hd))) as (_ & Hf & _).
  assert (He : forall x, (x < List.length files)%nat -> nth_error (bodies s) x = Some BEnd).
  { intros x Hx. apply Hfin. apply Permutation_sym in Hf. apply (Permutation_in _ Hf), in_seq. lia. }
  assert (Hp : Permutation (seq 0 (List.length files)) order).
  { apply nodup_seq; auto. intros x. rewrite Ho2. split.
    - intros (p & E & _). rewrite <- Hl. apply nth_error_Some. congruence.
    - intros Hx. exists BEnd. split; auto. }
  apply (Permutation_map (nth_error files)) in Hp. rewrite files_seq in Hp. apply perm_some in Hp as (rest & E & Hr).
  exists rest. split; auto. rewrite Ho3, (prints_order _ _ E). rewrite Ho5.
  - rewrite append_nil. auto.
  - intros x r E'. assert (x < List.length files)%nat by (rewrite <- Hl; apply nth_error_Some; congruence). rewrite He in E' by auto. discriminate.
Qed.

(** No deadlock. *)
Lemma task_in m q j p x : steps n m (initial [(seq 0 (List.length files), true)]) q -> at_t q j p x -> (x < List.length files)%nat.
Proof.
  intros H E. pose proof (ghost_steps _ _ _ _ _ H (ghost_initial _)) as [G _ _]. cbn [flat_map fst] in G. rewrite app_nil_r in G.
  assert (Hx : In x (map t_id (tasks q) ++ flat_map c_todo (callers q))%list) by (apply in_or_app; left; apply (in_map t_id) with (x := mkTask p x); eapply nth_error_In; eauto).
  apply (Permutation_in _ G), in_seq in Hx. lia.
Qed.
Lemma body_moves s j x p : binv s -> at_t (queue s) j TRunning x -> nth_error (bodies s) x = Some p -> p <> BEnd -> (mutex s = true -> holding p = true) ->
  exists s', bstep n files s s'.
Proof.
  destruct s as [q bs mu o]. intros I Hr Hx Hne Hm. cbn [queue bodies mutex] in *.
  assert (Hmu : p = BLock \/ (exists v, p = BVals v) -> mu = false) by (intros [->|(v & ->)]; destruct mu; auto; specialize (Hm eq_refl); discriminate).
  destruct p as [| | |v|r| |].
  - rewrite (Hmu (or_introl eq_refl)). eexists. eapply b_lock; eauto.
  - eexists. eapply b_open; eauto.
  - destruct (nth_error files x) as [fl|] eqn:E.
    + eexists. eapply b_read; eauto.
    + apply nth_error_None in E. rewrite <- (b_len _ I) in E. apply nth_error_None in E. cbn [bodies] in E. congruence.
  - rewrite (Hmu (or_intror (ex_intro _ v eq_refl))). eexists. eapply b_lock2; eauto.
  - destruct (b_out _ I) as (order & part & _ & _ & _ & H4 & _). destruct (H4 x r Hx) as (Hr0 & _). destruct r as [|v [|u t]]; [congruence| |].
    + eexists. eapply b_write_last; eauto.
    + eexists. eapply b_write; eauto.
  - eexists. eapply b_unlock; eauto.
  - congruence.
Qed.
Lemma buffered_progress_l m s : 1 <= n -> bsteps n files m (binitial files head) s -> returned s \/ exists s', bstep n files s s'.
Proof.
  intros Hn H. pose proof (binv_steps _ _ _ H binv_initial) as I. destruct (project _ _ H) as (m' & Hm).
  assert (Hc : exists c, callers (queue s) = [c]).
  { clear - Hm. remember (initial _) as q0. induction Hm as [q|m q q1 q2 Hm IH Hs]; subst.
    - cbn. eauto.
    - destruct (IH eq_refl) as (c & E). destruct Hs; cbn [callers set_caller set_task set_locked set_k set_wg]; rewrite E; try (eexists; reflexivity);
        unfold at_c in *; rewrite E in *; destruct i as [|[|i]]; try discriminate; cbn [set_nth]; eauto. }
  destruct Hc as (c & Hc). destruct c as [pc td w] eqn:Ec.
  destruct (match pc with CDone => true | _ => false end) eqn:Ed.
  { left. exists td, w. unfold at_c. rewrite Hc. destruct pc; try discriminate. reflexivity. }
  right. destruct (progress_l n _ m' (queue s) Hn Hm) as (q' & Hs).
  { exists 0%nat, (mkCaller pc td w). rewrite Hc. split; auto. destruct pc; discriminate. }
  destruct (step_cases n _ _ Hs) as [(Hf & _)|(j & x & Hj & Hf & _)].
  - destruct s as [q bs mu o]. eexists. eapply b_queue; eauto.
  - pose proof (task_in _ _ _ _ _ Hm Hj) as Hx. rewrite <- (b_len _ I) in Hx. destruct (nth_error (bodies s) x) as [p|] eqn:Ep; [|apply nth_error_None in Ep; lia].
    assert (p = BEnd \/ p <> BEnd) as [->|Hp] by (destruct p; auto; right; discriminate).
    + destruct s as [q bs mu o]. eexists. eapply b_return; eauto.
    + destruct (mutex s) eqn:Em; [|eapply body_moves; eauto; congruence].
      destruct (b_held _ I Em) as (y & r & Er & Hr). destruct (b_run _ I y r Er) as (j' & Hj'); [intros ->; discriminate|intros ->; discriminate|].
      eapply (body_moves s j' y r); eauto. intros ->; discriminate.
Qed.

(** Every execution is finite. *)
Definition bodyWork (fl : string * Z) (p : bpc) : Z :=
  match p with
  | BLock => Z.of_nat (List.length (fileVals fl)) + 6 | BOpen => Z.of_nat (List.length (fileVals fl)) + 5 | BRead => Z.of_nat (List.length (fileVals fl)) + 4
  | BVals v => Z.of_nat (List.length v) + 3 | BWrite r => Z.of_nat (List.length r) + 2 | BUnlock => 1 | BEnd => 0
  end.
Definition bmeas (s : bstate) : Z := meas (queue s) + zsum (fun fp => bodyWork (fst fp) (snd fp)) (combine files (bodies s)).
Lemma combine_set_nth (fs : list (string * Z)) : forall (bs : list bpc) x p fl, nth_error fs x = Some fl ->
  combine fs (set_nth x p bs) = set_nth x (fl, p) (combine fs bs).
Proof.
  induction fs as [|f fs IH]; intros bs [|x] p fl E; try discriminate; destruct bs as [|b bs]; auto; cbn [set_nth combine]; f_equal.
  - cbn in E. congruence.
  - apply IH. auto.
Qed.
Lemma combine_nth_some (fs : list (string * Z)) : forall (bs : list bpc) x p fl, nth_error fs x = Some fl -> nth_error bs x = Some p -> nth_error (combine fs bs) x = Some (fl, p).
Proof. induction fs as [|f fs IH]; intros [|b bs] [|x] p fl E1 E2; try discriminate; cbn in *; try congruence. auto. Qed.
Lemma bmeas_body q bs mu o mu' o' x p p' : List.length bs = List.length files -> nth_error bs x = Some p ->
  (forall fl, nth_error files x = Some fl -> bodyWork fl p' + 1 <= bodyWork fl p) ->
  bmeas (mkB q (set_nth x p' bs) mu' o') + 1 <= bmeas (mkB q bs mu o).
Proof.
  intros Hl Hx Hw. destruct (nth_error files x) as [fl|] eqn:E; [|apply nth_error_None in E; rewrite <- Hl in E; apply nth_error_None in E; congruence].
  unfold bmeas. cbn [queue bodies]. rewrite (combine_set_nth files bs x p' fl E).
  rewrite (zsum_set _ _ x (fl, p) (fl, p') (combine_nth_some _ _ _ _ _ E Hx)). specialize (Hw fl eq_refl). cbn [fst snd]. lia.
Qed.
Lemma bmeas_step s s' : binv s -> bstep n files s s' -> bmeas s' + 1 <= bmeas s.
Proof.
  intros I Hs. pose proof (b_len _ I) as Hl. pose proof (b_vals _ I) as Hv. destruct Hs; cbn [queue bodies] in *.
  - pose proof (meas_step n _ _ H). unfold bmeas. cbn [queue bodies]. lia.
  - pose proof (meas_step n _ _ H). unfold bmeas. cbn [queue bodies]. lia.
  - eapply bmeas_body; eauto. intros; cbn [bodyWork]; lia.
  - eapply bmeas_body; eauto. intros; cbn [bodyWork]; lia.
  - eapply bmeas_body; eauto. intros fl' E; cbn [bodyWork]. replace fl' with fl by congruence. lia.
  - eapply bmeas_body; eauto. intros; cbn [bodyWork]; lia.
  - eapply bmeas_body; eauto. intros; cbn [bodyWork List.length]; lia.
  - eapply bmeas_body; eauto. intros; cbn [bodyWork List.length]; lia.
  - eapply bmeas_body; eauto. intros; cbn [bodyWork]; lia.
Qed.
Lemma bmeas_steps m s s' : bsteps n files m s s' -> binv s -> Z.of_nat m + bmeas s' <= bmeas s.
Proof.
  induction 1 as [s|m s s1 s2 H IH Hs]; intros I; [lia|]. specialize (IH I). pose proof (bmeas_step s1 s2 (binv_steps _ _ _ H I) Hs). lia.
Qed.
End Run.

(** The number of steps: those of the queue, and for each file one per value and six more. *)
Fixpoint fileWork (fs : list (string * Z)) : nat := match fs with [] => 0 | fl :: t => List.length (fileVals fl) + 6 + fileWork t end.
Lemma bmeas_initial files head : bmeas files (binitial files head) = Z.of_nat (work [(seq 0 (List.length files), true)] + fileWork files).
Proof.
  unfold bmeas, binitial. cbn [queue bodies]. rewrite meas_initial, Nat2Z.inj_add. f_equal. induction files as [|f fs IH]; auto.
  cbn [map combine zsum fst snd bodyWork fileWork]. rewrite IH. lia.
Qed.
Lemma buffered_finite_l n files head m s : bsteps n files m (binitial files head) s -> (m <= work [(seq 0 (List.length files), true)] + fileWork files)%nat.
Proof.
  intros H. pose proof (bmeas_steps n files head _ _ _ H (binv_initial files head)) as Hm. rewrite bmeas_initial in Hm.
  assert (0 <= bmeas files s).
  { unfold bmeas. pose proof (meas_nonneg (queue s)). assert (0 <= zsum (fun fp : string * Z * bpc => bodyWork (fst fp) (snd fp)) (combine files (bodies s))).
    { apply zsum_nonneg. intros [fl p]. cbn [fst snd]. destruct p; cbn [bodyWork]; lia. }
    lia. }
  lia.
Qed.
