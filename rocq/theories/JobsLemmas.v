(** Executions of the completion jobs. *)
From Coq Require Import Ascii String.
From Verif Require Import Base Res GoMap TopoLemmas Misc Conc ConcSpec ConcLemmas Jobs JobsSpec ImgConcLemmas.
Local Open Scope Z_scope.

Definition copying (p : jpc) : bool := match p with JCopy => true | _ => false end.

Section Run.
Context (n : Z) (ndata : nat) (orients : list cmplType) (nameOf : nat -> Z -> cmplType -> string) (draw : nat -> cmplType -> res string).

(** The main goroutine and the loop variable. *)
Definition loopInv (q : state) (i : Z) : Prop :=
  exists pc k wt, callers q = [mkCaller pc (seq k (ndata - k)) wt] /\ (k <= ndata)%nat /\
    (forall t, In t (tasks q) -> (t_id t < k)%nat) /\ (i = Z.of_nat k \/ (i + 1 = Z.of_nat k /\ pc = CIdle)).

(** Instance [x] has drawn [v], with what is now [d]. *)
Definition drew (d : files) (x : nat) (v : cmplType) : Prop :=
  exists i c, In (nameOf x i v, c) d /\ draw x v = Ok c.

Record jinv (s : jstate) : Prop := {
  j_len : List.length (jbodies s) = ndata;
  j_one : forall x y, nth_error (jbodies s) x = Some JCopy -> nth_error (jbodies s) y = Some JCopy -> x = y;
  j_mu : forall x, nth_error (jbodies s) x = Some JCopy -> cpmutex s = true;
  j_held : cpmutex s = true -> exists x, nth_error (jbodies s) x = Some JCopy;
  j_run : forall x p, nth_error (jbodies s) x = Some p -> p <> JLock -> p <> JEnd -> exists j, at_t (jqueue s) j TRunning x;
  j_fin : forall x, In x (finished (jqueue s)) -> nth_error (jbodies s) x = Some JEnd;
  j_todo : forall x t, nth_error (jbodies s) x = Some (JDraw t) -> exists pre, orients = (pre ++ t)%list /\ forall v, In v pre -> drew (disk s) x v;
  j_end : forall x, nth_error (jbodies s) x = Some JEnd -> forall v, In v orients -> drew (disk s) x v;
  j_disk : forall nm c, In (nm, c) (disk s) -> exists x i v, nm = nameOf x i v /\ draw x v = Ok c /\ (x < ndata)%nat /\ In v orients /\ Z.of_nat x <= i <= Z.of_nat ndata;
  j_loop : loopInv (jqueue s) (loopvar s) }.

Lemma nth_repeat {T} (a : T) k x p : nth_error (repeat a k) x = Some p -> p = a.
Proof. intros H. apply nth_error_In, repeat_spec in H. auto. Qed.
Lemma jinv_initial : jinv (jinitial ndata).
Proof.
  constructor; cbn [jinitial jbodies cpmutex jqueue disk loopvar].
  - apply repeat_length.
  - intros x y H. apply nth_repeat in H. discriminate.
  - intros x H. apply nth_repeat in H. discriminate.
  - discriminate.
  - intros x p H. apply nth_repeat in H. congruence.
  - intros x [].
  - intros x t H. apply nth_repeat in H. discriminate.
  - intros x H. apply nth_repeat in H. discriminate.
  - intros nm c [].
  - exists CIdle, 0%nat, true. rewrite Nat.sub_0_r. split; [reflexivity|]. split; [lia|]. split; [intros t []|left; lia].
Qed.

Lemma drew_more d x v nm c : drew d x v -> drew ((nm, c) :: d) x v.
Proof. intros (i & c' & H & E). exists i, c'. split; auto. right. auto. Qed.

(** A step of the queue keeps the loop in order. *)
Lemma in_set {T} (l : list T) i x y : In y (set_nth i x l) -> y = x \/ In y l.
Proof. intros H. apply In_nth_error in H as (k & H). apply set_inv in H as [(_ & ->)|(_ & H)]; auto. right. eapply nth_error_In; eauto. Qed.
Lemma loop_step q q' i : step n q q' -> (incPending ndata q i -> callers q' = callers q) -> loopInv q i -> loopInv q' i.
Proof.
  intros Hs Hp (pc & k & wt & Hc & Hk & Ht & Hi).
  assert (Hidle : pc = CIdle -> callers q' <> callers q -> i = Z.of_nat k).
  { intros -> Hne. destruct Hi as [Hi|(Hi & _)]; auto. exfalso. apply Hne, Hp. exists (seq k (ndata - k)), wt. split; [unfold at_c; rewrite Hc; reflexivity|]. rewrite seq_length. lia. }
  assert (T : forall s j0 p0 p x, tasks s = tasks q -> at_t q j0 p0 x -> forall t, In t (tasks (set_task s j0 (mkTask p x))) -> (t_id t < k)%nat).
  { intros s j0 p0 p x Es Hj t H. cbn [tasks set_task] in H. rewrite Es in H. apply in_set in H as [->|H]; auto. cbn. apply (Ht (mkTask p0 x)). eapply nth_error_In; eauto. }
  assert (C : forall i0 p td w0, at_c q i0 p td w0 -> i0 = 0%nat /\ p = pc /\ td = seq k (ndata - k) /\ w0 = wt).
  { unfold at_c. rewrite Hc. intros [|[|i0]] p td w0 E; try discriminate. cbn in E. injection E as -> -> ->. auto. }
  destruct Hs as [s i0 x td w0 H|s i0 td w0 H|s i0 td w0 H|s i0 td w0 H|s i0 td w0 H|s i0 td w0 H|s i0 td w0 H|s i0 td w0 H|s i0 x td w0 H|s i0 H|s i0 H|s i0 H|
    s j x H|s j x H|s j x H|s j x H|s j x H|s j x i0 td w0 H H'|s j x H|s j x H].
  (* calls *)
  1-8: destruct (C _ _ _ _ H) as (-> & Epc & Etd & ->); unfold loopInv; cbn [callers tasks set_caller set_locked set_k set_wg] in *; rewrite Hc in *; cbn [set_nth] in *; rewrite Etd; eexists _, k, wt;
    split; [reflexivity|]; split; [auto|]; split; [auto|]; destruct Hi as [Hi|(Hi & Hi')]; [left; exact Hi|]; try congruence; (left; apply Hidle; [auto|intros Ecs; injection Ecs; intros; congruence]).
  - (* spawn *)
    destruct (C _ _ _ _ H) as (-> & Epc & Etd & ->). assert (i = Z.of_nat k) as Ei by (destruct Hi as [Hi|(_ & Hi)]; [auto|congruence]).
    destruct (ndata - k)%nat as [|r] eqn:Er; [discriminate|]. cbn [seq] in Etd. injection Etd as -> ->.
    exists CIdle, (S k), wt. cbn [callers tasks set_caller]. rewrite Hc. cbn [set_nth]. replace (ndata - S k)%nat with r by lia. split; [reflexivity|]. split; [lia|]. split.
    + intros t H0. apply in_app_or in H0 as [H0|[<-|[]]]; [specialize (Ht t H0); lia|cbn; lia].
    + right. split; [lia|auto].
  - destruct (C _ _ _ _ H) as (-> & Epc & Etd & Ew). unfold loopInv. cbn [callers tasks set_caller] in *. rewrite Hc in *. cbn [set_nth] in *. exists CWaiting, k, wt. rewrite <- Etd, <- Ew.
    split; [reflexivity|]. split; [auto|]. split; [auto|]. left. apply Hidle; [auto|intros Ecs; injection Ecs; intros; congruence].
  - destruct (C _ _ _ _ H) as (-> & Epc & Etd & Ew). unfold loopInv. cbn [callers tasks set_caller] in *. rewrite Hc in *. cbn [set_nth] in *. exists CDone, k, wt. rewrite <- Etd, <- Ew.
    split; [reflexivity|]. split; [auto|]. split; [auto|]. destruct Hi as [Hi|(_ & Hi)]; [auto|congruence].
  - destruct (C _ _ _ _ H) as (-> & Epc & Etd & Ew). unfold loopInv. cbn [callers tasks set_caller] in *. rewrite Hc in *. cbn [set_nth] in *. exists CDone, k, wt. rewrite <- Etd, <- Ew.
    split; [reflexivity|]. split; [auto|]. split; [auto|]. left. apply Hidle; [auto|intros Ecs; injection Ecs; intros; congruence].
  - exists pc, k, wt. split; [exact Hc|]. split; auto. split; auto. eapply (T s); eauto.
  - exists pc, k, wt. split; [exact Hc|]. split; auto. split; auto. eapply (T s); eauto.
  - exists pc, k, wt. split; [exact Hc|]. split; auto. split; auto. eapply (T s); eauto.
  - exists pc, k, wt. split; [exact Hc|]. split; auto. split; auto. eapply (T s); eauto.
  - exists pc, k, wt. split; [exact Hc|]. split; auto. split; auto. eapply (T s); eauto.
  - destruct (C _ _ _ _ H') as (-> & Epc & Etd & ->). exists CWoken, k, wt. split; [cbn [callers set_task set_caller]; rewrite Hc, Etd; reflexivity|]. split; [auto|]. split.
    + eapply (T (set_caller s 0 (mkCaller CWoken td wt))); eauto.
    + destruct Hi as [Hi|(_ & Hi)]; [auto|congruence].
  - exists pc, k, wt. split; [exact Hc|]. split; auto. split; auto. eapply (T s); eauto.
  - exists pc, k, wt. split; [exact Hc|]. split; auto. split; auto. eapply (T s); eauto.
Qed.

Lemma jinv_step s s' : jinv s -> jstep n ndata orients nameOf draw s s' -> jinv s'.
Proof.
  intros [Hl Hone Hmu Hheld Hrun Hfin Htodo Hend Hdisk Hloop] Hst.
  destruct Hst as [q q' bs mu i d Hs Hf Hp|q bs mu i d Hp|q q' bs mu i d x Hs Hf Hx|q bs i d j x Hr Hx|q bs mu i d j x Hr Hx|q bs mu i d j x v t c Hr Hx Hd|q bs mu i d j x Hr Hx];
    cbn [jqueue jbodies cpmutex loopvar disk] in *.
  - destruct (step_cases n q q' Hs) as [(_ & Hk)|(j & x & _ & Hf' & _)].
    2:{ rewrite Hf in Hf'. apply (f_equal (@List.length nat)) in Hf'. rewrite app_length in Hf'. cbn in Hf'. lia. }
    constructor; cbn [jqueue jbodies cpmutex loopvar disk]; auto.
    + intros y p E H1 H2. destruct (Hrun y p E H1 H2) as (j & Hj). exists j. auto.
    + rewrite Hf. auto.
    + eapply loop_step; eauto.
  - constructor; cbn [jqueue jbodies cpmutex loopvar disk]; auto.
    destruct Hloop as (pc & k & wt & Hc & Hk & Ht & Hi). destruct Hp as (td & wt' & Ha & Hlt). unfold at_c in Ha. rewrite Hc in Ha. cbn in Ha. injection Ha as -> <- <-. rewrite seq_length in Hlt.
    exists CIdle, k, wt. split; [auto|]. split; [auto|]. split; [auto|]. left. destruct Hi as [Hi|(Hi & _)]; lia.
  - destruct (step_cases n q q' Hs) as [(Hf' & _)|(j & x' & Hj & Hf' & Hk)].
    { rewrite Hf' in Hf. apply (f_equal (@List.length nat)) in Hf. rewrite app_length in Hf. cbn in Hf. lia. }
    rewrite Hf in Hf'. apply app_inj_tail in Hf' as (_ & <-).
    constructor; cbn [jqueue jbodies cpmutex loopvar disk]; auto.
    + intros y p E H1 H2. destruct (Hrun y p E H1 H2) as (j' & Hj'). exists j'. apply Hk; auto. intros ->. unfold at_t in *. congruence.
    + rewrite Hf. intros y Hy. apply in_app_or in Hy as [Hy|[<-|[]]]; auto.
    + eapply loop_step; eauto. intros _.
      destruct Hs; try (exfalso; cbn [finished set_caller set_locked set_k set_wg set_task] in Hf; apply (f_equal (@List.length nat)) in Hf; rewrite app_length in Hf; cbn in Hf; lia). reflexivity.
  - constructor; cbn [jqueue jbodies cpmutex loopvar disk]; auto.
    + rewrite set_nth_length. auto.
    + intros y z E1 E2. apply set_inv in E1 as [(-> & _)|(_ & E1)]; [|specialize (Hmu _ E1); discriminate].
      apply set_inv in E2 as [(-> & _)|(_ & E2)]; [auto|specialize (Hmu _ E2); discriminate].
    + intros _. exists x. apply nth_error_set_nth_same, nth_error_Some. congruence.
    + intros y p E H1 H2. apply set_inv in E as [(-> & ->)|(_ & E)]; eauto.
    + intros y Hy. destruct (Nat.eq_dec y x) as [->|]; [rewrite (Hfin x Hy) in Hx; discriminate|]. rewrite nth_error_set_nth_diff; auto.
    + intros y t E. apply set_inv in E as [(-> & E)|(_ & E)]; [discriminate|auto].
    + intros y E. apply set_inv in E as [(-> & E)|(_ & E)]; [discriminate|auto].
  - constructor; cbn [jqueue jbodies cpmutex loopvar disk]; auto.
    + rewrite set_nth_length. auto.
    + intros y z E1 E2. apply set_inv in E1 as [(-> & E1)|(_ & E1)]; [discriminate|]. apply set_inv in E2 as [(-> & E2)|(_ & E2)]; [discriminate|]. auto.
    + intros y E. apply set_inv in E as [(-> & E)|(Hne & E)]; [discriminate|]. exfalso. apply Hne. auto.
    + discriminate.
    + intros y p E H1 H2. apply set_inv in E as [(-> & ->)|(_ & E)]; eauto.
    + intros y Hy. destruct (Nat.eq_dec y x) as [->|]; [rewrite (Hfin x Hy) in Hx; discriminate|]. rewrite nth_error_set_nth_diff; auto.
    + intros y t E. apply set_inv in E as [(-> & E)|(_ & E)]; [|auto]. injection E as ->. exists []. split; [auto|intros v []].
    + intros y E. apply set_inv in E as [(-> & E)|(_ & E)]; [discriminate|auto].
  - constructor; cbn [jqueue jbodies cpmutex loopvar disk]; auto.
    + rewrite set_nth_length. auto.
    + intros y z E1 E2. apply set_inv in E1 as [(-> & E1)|(_ & E1)]; [discriminate|]. apply set_inv in E2 as [(-> & E2)|(_ & E2)]; [discriminate|]. auto.
    + intros y E. apply set_inv in E as [(-> & E)|(Hne & E)]; [discriminate|eauto].
    + intros H. destruct (Hheld H) as (y & E). exists y. rewrite nth_error_set_nth_diff; auto. intros ->. congruence.
    + intros y p E H1 H2. apply set_inv in E as [(-> & ->)|(_ & E)]; eauto.
    + intros y Hy. destruct (Nat.eq_dec y x) as [->|]; [rewrite (Hfin x Hy) in Hx; discriminate|]. rewrite nth_error_set_nth_diff; auto.
    + intros y t' E. apply set_inv in E as [(-> & E)|(_ & E)].
      * injection E as ->. destruct (Htodo _ _ Hx) as (pre & Ho & Hpre). exists (pre ++ [v])%list. split; [rewrite <- app_assoc; auto|].
        intros u Hu. apply in_app_or in Hu as [Hu|[<-|[]]]; [apply drew_more; auto|]. exists i, c. split; auto. left. auto.
      * destruct (Htodo _ _ E) as (pre & Ho & Hpre). exists pre. split; auto. intros u Hu. apply drew_more; auto.
    + intros y E u Hu. apply set_inv in E as [(-> & E)|(_ & E)]; [discriminate|]. apply drew_more; auto.
    + intros nm c' [E|E]; [|auto]. injection E as <- <-. exists x, i, v. split; auto. split; auto. split; [rewrite <- Hl; apply nth_error_Some; congruence|]. split.
      * destruct (Htodo _ _ Hx) as (pre & -> & _). apply in_or_app. right. left. auto.
      * destruct Hloop as (pc & k & wt & Hc & Hk & Ht & Hi). assert (x < k)%nat by (apply (Ht (mkTask TRunning x)); eapply nth_error_In; eauto). destruct Hi as [Hi|(Hi & _)]; lia.
  - constructor; cbn [jqueue jbodies cpmutex loopvar disk]; auto.
    + rewrite set_nth_length. auto.
    + intros y z E1 E2. apply set_inv in E1 as [(-> & E1)|(_ & E1)]; [discriminate|]. apply set_inv in E2 as [(-> & E2)|(_ & E2)]; [discriminate|]. auto.
    + intros y E. apply set_inv in E as [(-> & E)|(Hne & E)]; [discriminate|eauto].
    + intros H. destruct (Hheld H) as (y & E). exists y. rewrite nth_error_set_nth_diff; auto. intros ->. congruence.
    + intros y p E H1 H2. apply set_inv in E as [(-> & ->)|(_ & E)]; eauto.
    + intros y Hy. destruct (Nat.eq_dec y x) as [->|]; [apply nth_error_set_nth_same, nth_error_Some; congruence|]. rewrite nth_error_set_nth_diff; auto.
    + intros y t E. apply set_inv in E as [(-> & E)|(_ & E)]; [discriminate|auto].
    + intros y E v Hv. apply set_inv in E as [(-> & E)|(_ & E)]; [|auto]. destruct (Htodo _ _ Hx) as (pre & Ho & Hpre). rewrite app_nil_r in Ho. subst pre. auto.
Qed.
Lemma jinv_steps m s s' : jsteps n ndata orients nameOf draw m s s' -> jinv s -> jinv s'.
Proof. induction 1 as [s|m s s1 s2 H IH Hs]; auto. intros I. exact (jinv_step s1 s2 (IH I) Hs). Qed.
Lemma jproject m s : jsteps n ndata orients nameOf draw m (jinitial ndata) s -> exists m', steps n m' (initial [(seq 0 ndata, true)]) (jqueue s).
Proof.
  intros H. remember (jinitial ndata) as s0. induction H as [s|m s s1 s2 H IH Hs]; subst.
  - exists 0%nat. constructor.
  - destruct (IH eq_refl) as (m' & Hm). destruct Hs; cbn [jqueue] in *; eauto; exists (S m'); econstructor; eauto.
Qed.

(** When the main goroutine returns, every instance has drawn everything. *)
Lemma jobs_out m s : 1 <= n -> jsteps n ndata orients nameOf draw m (jinitial ndata) s -> jobsDone s ->
  forall x, (x < ndata)%nat -> forall v, In v orients -> drew (disk s) x v.
Proof.
  intros Hn H (td & w & Hd) x Hx. pose proof (jinv_steps _ _ _ H jinv_initial) as I.
  destruct (jproject _ _ H) as (m' & Hm). destruct (wait_l n _ m' (jqueue s) Hn Hm (ex_intro _ td (ex_intro _ w Hd))) as (_ & Hf & _).
  apply (j_end _ I). apply (j_fin _ I). apply Permutation_sym in Hf. apply (Permutation_in _ Hf), in_seq. lia.
Qed.

(** No deadlock. *)
Lemma job_moves s j x p : jinv s -> at_t (jqueue s) j TRunning x -> nth_error (jbodies s) x = Some p -> p <> JEnd -> (cpmutex s = true -> p <> JLock) ->
  (forall v, In v orients -> exists c, draw x v = Ok c) -> exists s', jstep n ndata orients nameOf draw s s'.
Proof.
  destruct s as [q bs mu i d]. intros I Hr Hx Hne Hm Hdr. cbn [jqueue jbodies cpmutex] in *. destruct p as [| |[|v t]|].
  - destruct mu; [exfalso; apply Hm; auto|]. eexists. eapply j_lock; eauto.
  - eexists. eapply j_copy; eauto.
  - eexists. eapply j_drawn; eauto.
  - destruct (Hdr v) as (c & Hc).
    + destruct (j_todo _ I x _ Hx) as (pre & -> & _). apply in_or_app. right. left. auto.
    + eexists. eapply j_draw; eauto.
  - congruence.
Qed.
Lemma jobs_progress m s : 1 <= n -> jsteps n ndata orients nameOf draw m (jinitial ndata) s ->
  (forall x v, (x < ndata)%nat -> In v orients -> exists c, draw x v = Ok c) -> jobsDone s \/ exists s', jstep n ndata orients nameOf draw s s'.
Proof.
  intros Hn H Hdr. pose proof (jinv_steps _ _ _ H jinv_initial) as I. destruct (jproject _ _ H) as (m' & Hm).
  destruct (j_loop _ I) as (pc & k & wt & Hc & Hk & Ht & Hi).
  assert (Hdec : incPending ndata (jqueue s) (loopvar s) \/ ~ incPending ndata (jqueue s) (loopvar s)).
  { assert (pc = CIdle \/ pc <> CIdle) as [->|Hpc] by (destruct pc; auto; right; discriminate).
    - destruct Hi as [Hi|(Hi & _)].
      + right. intros (td & w & Ha & Hlt). unfold at_c in Ha. rewrite Hc in Ha. cbn in Ha. injection Ha as <- <-. rewrite seq_length in Hlt. lia.
      + left. exists (seq k (ndata - k)), wt. split; [unfold at_c; rewrite Hc; reflexivity|]. rewrite seq_length. lia.
    - right. intros (td & w & Ha & _). unfold at_c in Ha. rewrite Hc in Ha. cbn in Ha. congruence. }
  destruct Hdec as [Hpend|Hnp]; [right; destruct s as [q bs mu i d]; eexists; apply j_incr; auto|].
  destruct (match pc with CDone => true | _ => false end) eqn:Ed.
  { left. eexists _, wt. unfold at_c. rewrite Hc. destruct pc; try discriminate. reflexivity. }
  right. destruct (progress_l n _ m' (jqueue s) Hn Hm) as (q' & Hs).
  { eexists 0%nat, _. rewrite Hc. split; [reflexivity|]. destruct pc; discriminate. }
  destruct (step_cases n _ _ Hs) as [(Hf & _)|(j & x & Hj & Hf & _)].
  - destruct s as [q bs mu i d]. eexists. eapply j_queue; eauto. intros Hp. contradiction.
  - assert (Hx : (x < ndata)%nat) by (assert (x < k)%nat by (apply (Ht (mkTask TRunning x)); eapply nth_error_In; eauto); lia).
    destruct (nth_error (jbodies s) x) as [p|] eqn:Ep; [|apply nth_error_None in Ep; rewrite (j_len _ I) in Ep; lia].
    assert (p = JEnd \/ p <> JEnd) as [->|Hp] by (destruct p; auto; right; discriminate).
    + destruct s as [q bs mu i d]. eexists. eapply j_return; eauto.
    + destruct (cpmutex s) eqn:Em; [|eapply job_moves; eauto; congruence].
      destruct (j_held _ I Em) as (y & Ey). destruct (j_run _ I y _ Ey) as (j' & Hj'); [discriminate|discriminate|].
      eapply (job_moves s j' y JCopy); eauto; try discriminate. intros v Hv. apply Hdr; auto. rewrite <- (j_len _ I). apply nth_error_Some. congruence.
Qed.

(** Every execution is finite. *)
Definition jobWork (p : jpc) : Z :=
  match p with JLock => Z.of_nat (List.length orients) + 3 | JCopy => Z.of_nat (List.length orients) + 2 | JDraw t => Z.of_nat (List.length t) + 1 | JEnd => 0 end.
Definition jmeas (s : jstate) : Z := meas (jqueue s) + zsum jobWork (jbodies s) + (Z.of_nat ndata - loopvar s).
Lemma jmeas_body q bs mu i d mu' d' x p p' : nth_error bs x = Some p -> jobWork p' + 1 <= jobWork p ->
  jmeas (mkJ q (set_nth x p' bs) mu' i d') + 1 <= jmeas (mkJ q bs mu i d).
Proof. intros Hx Hw. unfold jmeas. cbn [jqueue jbodies loopvar]. rewrite (zsum_set _ _ x p p' Hx). lia. Qed.
Lemma jmeas_step s s' : jinv s -> jstep n ndata orients nameOf draw s s' -> jmeas s' + 1 <= jmeas s.
Proof.
  intros I Hs. destruct Hs; cbn [jqueue jbodies] in *.
  - pose proof (meas_step n _ _ H). unfold jmeas. cbn [jqueue jbodies loopvar]. lia.
  - unfold jmeas. cbn [jqueue jbodies loopvar]. lia.
  - pose proof (meas_step n _ _ H). unfold jmeas. cbn [jqueue jbodies loopvar]. lia.
  - eapply jmeas_body; eauto. cbn [jobWork]; lia.
  - eapply jmeas_body; eauto. cbn [jobWork]; lia.
  - eapply jmeas_body; eauto. cbn [jobWork List.length]; lia.
  - eapply jmeas_body; eauto. cbn [jobWork List.length]; lia.
Qed.
Lemma jmeas_steps m s s' : jsteps n ndata orients nameOf draw m s s' -> jinv s -> Z.of_nat m + jmeas s' <= jmeas s.
Proof.
  induction 1 as [s|m s s1 s2 H IH Hs]; intros I; [lia|]. specialize (IH I). pose proof (jmeas_step s1 s2 (jinv_steps _ _ _ H I) Hs). lia.
Qed.
Definition jobsBound : nat := work [(seq 0 ndata, true)] + ndata * (List.length orients + 4).
Lemma zsum_repeat {T} (f : T -> Z) a k : zsum f (repeat a k) = Z.of_nat k * f a.
Proof. induction k as [|k IH]; [reflexivity|]. cbn [repeat zsum]. rewrite IH. lia. Qed.
Lemma jobs_finite m s : jsteps n ndata orients nameOf draw m (jinitial ndata) s -> (m <= jobsBound)%nat.
Proof.
  intros H. pose proof (jmeas_steps _ _ _ H jinv_initial) as Hm. pose proof (jinv_steps _ _ _ H jinv_initial) as I.
  assert (E : jmeas (jinitial ndata) = Z.of_nat jobsBound).
  { unfold jmeas, jinitial, jobsBound. cbn [jqueue jbodies loopvar]. rewrite meas_initial, zsum_repeat. cbn [jobWork]. rewrite !Nat2Z.inj_add, Nat2Z.inj_mul, Nat2Z.inj_add. lia. }
  assert (0 <= jmeas s).
  { unfold jmeas. pose proof (meas_nonneg (jqueue s)). assert (0 <= zsum jobWork (jbodies s)) by (apply zsum_nonneg; intros p; destruct p; cbn [jobWork]; lia).
    destruct (j_loop _ I) as (pc & k & wt & _ & Hk & _ & Hi). destruct Hi as [Hi|(Hi & _)]; lia. }
  lia.
Qed.
Lemma jsteps_app m1 m2 s1 s2 s3 : jsteps n ndata orients nameOf draw m1 s1 s2 -> jsteps n ndata orients nameOf draw m2 s2 s3 -> jsteps n ndata orients nameOf draw (m2 + m1) s1 s3.
Proof. intros H1 H2. revert s1 m1 H1. induction H2; intros; simpl; auto. econstructor; eauto. Qed.
Lemma jsteps_cons m s1 s2 s3 : jstep n ndata orients nameOf draw s1 s2 -> jsteps n ndata orients nameOf draw m s2 s3 -> jsteps n ndata orients nameOf draw (m + 1) s1 s3.
Proof. intros H1 H2. eapply jsteps_app; eauto. econstructor; [constructor|auto]. Qed.
Lemma jobs_ends m s : 1 <= n -> jsteps n ndata orients nameOf draw m (jinitial ndata) s -> (forall x v, (x < ndata)%nat -> In v orients -> exists c, draw x v = Ok c) ->
  exists m' s', jsteps n ndata orients nameOf draw m' s s' /\ jobsDone s'.
Proof.
  intros Hn H Hdr. remember (jobsBound - m)%nat as b eqn:Eb. revert m s Eb H.
  induction b as [|b IH]; intros m s Eb H.
  - destruct (jobs_progress m s Hn H Hdr) as [Hr|(s1 & Hs)]; [exists 0%nat, s; split; auto; constructor|].
    pose proof (jobs_finite _ _ (jsteps_S _ _ _ _ _ _ _ _ _ H Hs)). lia.
  - destruct (jobs_progress m s Hn H Hdr) as [Hr|(s1 & Hs)]; [exists 0%nat, s; split; auto; constructor|].
    destruct (IH (S m) s1) as (m' & s' & H1 & H2); [lia|econstructor; eauto|]. exists (m' + 1)%nat, s'. split; auto.
    eapply jsteps_cons; eauto.
Qed.
End Run.
