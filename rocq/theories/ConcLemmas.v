From Verif Require Import Base Conc ConcSpec.
Local Open Scope Z_scope.

Fixpoint zsum {A} (f : A -> Z) (l : list A) : Z :=
  match l with [] => 0 | x :: t => f x + zsum f t end.

Lemma zsum_app {A} (f : A -> Z) l1 l2 : zsum f (l1 ++ l2) = zsum f l1 + zsum f l2.
Proof. induction l1 as [|x t IH]; simpl; lia. Qed.

Lemma zsum_set {A} (f : A -> Z) l : forall i x y, nth_error l i = Some x ->
  zsum f (set_nth i y l) = zsum f l - f x + f y.
Proof.
  induction l as [|h t IH]; intros [|i] x y E; simpl in *; try discriminate.
  - injection E as ->. lia.
  - rewrite (IH i x y E). lia.
Qed.

Lemma zsum_nonneg {A} (f : A -> Z) l : (forall x, 0 <= f x) -> 0 <= zsum f l.
Proof. intros H. induction l as [|x t IH]; simpl; [lia|]. specialize (H x). lia. Qed.

Lemma zsum_ge {A} (f : A -> Z) l i x : (forall x, 0 <= f x) -> nth_error l i = Some x ->
  f x <= zsum f l.
Proof.
  intros H. revert i. induction l as [|h t IH]; intros [|i] E; simpl in *; try discriminate.
  - injection E as ->. pose proof (zsum_nonneg f t H). lia.
  - specialize (IH i E). specialize (H h). lia.
Qed.

Lemma zsum_pos {A} (f : A -> Z) l : 0 < zsum f l -> exists i x, nth_error l i = Some x /\ f x <> 0.
Proof.
  induction l as [|h t IH]; simpl; [lia|]. intros H.
  destruct (Z.eq_dec (f h) 0) as [E|E].
  - destruct IH as (i & x & E1 & E2); [lia|]. exists (S i), x. auto.
  - exists O, h. auto.
Qed.

Lemma zsum_le {A} (f g : A -> Z) l : (forall x, f x <= g x) -> zsum f l <= zsum g l.
Proof. intros H. induction l as [|x t IH]; simpl; [lia|]. specialize (H x). lia. Qed.

Lemma zsum_sub {A} (f g : A -> Z) l : zsum (fun x => f x - g x) l = zsum f l - zsum g l.
Proof. induction l as [|x t IH]; simpl; lia. Qed.

Definition slotC (c : caller) : Z := match c_pc c with CUnlock | CAdd | CSpawn => 1 | _ => 0 end.
Definition slotT (t : task) : Z := match t_pc t with TReady | TRunning | TAfter | TDec => 1 | _ => 0 end.
Definition holdC (c : caller) : Z := match c_pc c with CCheck | CInc | CUnlock => 1 | _ => 0 end.
Definition holdT (t : task) : Z := match t_pc t with TDec | TUnlock => 1 | _ => 0 end.
Definition incC (c : caller) : Z := match c_pc c with CInc => 1 | _ => 0 end.
Definition parkC (c : caller) : Z := match c_pc c with CParked => 1 | _ => 0 end.
Definition pendC (c : caller) : Z := match c_pc c with CWoken | CCheck | CInc => 1 | _ => 0 end.
Definition sigT_ (t : task) : Z := match t_pc t with TUnlock | TSignal => 1 | _ => 0 end.
Definition addC (c : caller) : Z := match c_pc c with CSpawn => 1 | _ => 0 end.
Definition aliveT (t : task) : Z := match t_pc t with TEnd => 0 | _ => 1 end.
Definition runT (t : task) : Z := match t_pc t with TRunning => 1 | _ => 0 end.

Record inv (n : Z) (s : state) : Prop := {
  i_k : k s = zsum slotC (callers s) + zsum slotT (tasks s);
  i_lock : zsum holdC (callers s) + zsum holdT (tasks s) = if locked s then 1 else 0;
  i_n : k s + zsum incC (callers s) <= n;
  i_sig : 0 < zsum parkC (callers s) ->
          n - k s <= zsum sigT_ (tasks s) + zsum pendC (callers s);
  i_wg : wg s = zsum addC (callers s) + zsum aliveT (tasks s);
  i_todo : forall i c, nth_error (callers s) i = Some c ->
     match c_pc c with
     | CIdle => True
     | CWaiting => c_todo c = [] /\ c_waits c = true
     | CDone => c_todo c = []
     | _ => c_todo c <> [] end }.

Lemma zsum_map_init {A B} (f : B -> Z) (g : A -> B) l : (forall x, f (g x) = 0) -> zsum f (map g l) = 0.
Proof. intros H. induction l as [|x t IH]; simpl; auto. rewrite H, IH. auto. Qed.

Lemma inv_initial n progs : 0 <= n -> inv n (initial progs).
Proof.
  intros Hn. constructor; simpl; rewrite ?zsum_map_init; auto; try lia.
  intros i c E. rewrite nth_error_map in E. destruct (nth_error progs i); [|discriminate].
  injection E as <-. simpl. auto.
Qed.

Lemma ge_c (cs : list caller) i c : nth_error cs i = Some c ->
  holdC c <= zsum holdC cs /\ incC c <= zsum incC cs /\ pendC c <= zsum pendC cs /\
  holdC c - incC c <= zsum holdC cs - zsum incC cs.
Proof.
  intros H. rewrite <- zsum_sub. repeat split; try apply (zsum_ge _ _ i);
  try apply (zsum_ge (fun c => holdC c - incC c) _ i); auto; intros [p ? ?]; destruct p; vm_compute; discriminate.
Qed.

Lemma ge_t (ts : list task) i c : nth_error ts i = Some c -> holdT c <= zsum holdT ts.
Proof.
  intros H. apply (zsum_ge _ _ i); auto; intros [p ?]; destruct p; vm_compute; discriminate.
Qed.

Lemma nonnegs (cs : list caller) (ts : list task) :
  0 <= zsum slotC cs /\ 0 <= zsum slotT ts /\ 0 <= zsum holdC cs /\ 0 <= zsum holdT ts /\
  0 <= zsum incC cs /\ 0 <= zsum parkC cs /\ 0 <= zsum pendC cs /\ 0 <= zsum sigT_ ts /\
  0 <= zsum addC cs /\ 0 <= zsum aliveT ts /\ zsum incC cs <= zsum holdC cs.
Proof.
  repeat split; try (apply zsum_nonneg; intros [p ? ?]; destruct p; vm_compute; discriminate);
  try (apply zsum_nonneg; intros [p ?]; destruct p; vm_compute; discriminate).
  apply zsum_le. intros [p ? ?]; destruct p; vm_compute; discriminate.
Qed.

Lemma todo_set (P : caller -> Prop) l i c :
  (forall j x, nth_error l j = Some x -> P x) -> P c ->
  forall j x, nth_error (set_nth i c l) j = Some x -> P x.
Proof.
  intros H Hc j x E. destruct (Nat.eq_dec j i) as [->|Hj].
  - destruct (Nat.lt_ge_cases i (length l)) as [Hl|Hl].
    + rewrite nth_error_set_nth_same in E by auto. injection E as <-. auto.
    + assert (nth_error (set_nth i c l) i = None).
      { apply nth_error_None. rewrite set_nth_length. auto. } congruence.
  - rewrite nth_error_set_nth_diff in E by auto. eauto.
Qed.

Lemma inv_step n s s' : inv n s -> step n s s' -> inv n s'.
Proof.
  intros I H. destruct I as [Ik Il In_ Is Iw It].
  pose proof (nonnegs (callers s) (tasks s)) as (?&?&?&?&?&?&?&?&?&?&?).
  destruct H; unfold at_c, at_t in *;
  try match goal with H : nth_error (callers _) _ = Some _ |- _ => pose proof (It _ _ H) as Ht; simpl in Ht end;
  try match goal with H : nth_error (callers _) _ = Some _ |- _ =>
    pose proof (ge_c _ _ _ H) as (? & ? & ? & ?) end;
  try match goal with H : nth_error (tasks _) _ = Some _ |- _ => pose proof (ge_t _ _ _ H) end;
  (constructor; simpl;
   [ rewrite ?zsum_app;
     repeat match goal with
     | H : nth_error (callers s) ?i = Some ?c |- context [zsum ?f (set_nth ?i ?y (callers s))] =>
         rewrite (zsum_set f (callers s) i c y H)
     | H : nth_error (tasks s) ?i = Some ?c |- context [zsum ?f (set_nth ?i ?y (tasks s))] =>
         rewrite (zsum_set f (tasks s) i c y H)
     end; cbn [slotC slotT holdC holdT incC parkC pendC sigT_ addC aliveT c_pc t_pc zsum] in *; lia
   | rewrite ?zsum_app;
     repeat match goal with
     | H : nth_error (callers s) ?i = Some ?c |- context [zsum ?f (set_nth ?i ?y (callers s))] =>
         rewrite (zsum_set f (callers s) i c y H)
     | H : nth_error (tasks s) ?i = Some ?c |- context [zsum ?f (set_nth ?i ?y (tasks s))] =>
         rewrite (zsum_set f (tasks s) i c y H)
     end;
     repeat match goal with H : locked s = _ |- _ => rewrite H in * end;
     cbn [slotC slotT holdC holdT incC parkC pendC sigT_ addC aliveT c_pc t_pc zsum] in *; try destruct (locked s); lia
   | repeat match goal with
     | H : nth_error (callers s) ?i = Some ?c |- context [zsum ?f (set_nth ?i ?y (callers s))] =>
         rewrite (zsum_set f (callers s) i c y H)
     end;
     cbn [slotC slotT holdC holdT incC parkC pendC sigT_ addC aliveT c_pc t_pc zsum] in *; destruct (locked s); lia
   | rewrite ?zsum_app;
     repeat match goal with
     | H : nth_error (callers s) ?i = Some ?c |- context [zsum ?f (set_nth ?i ?y (callers s))] =>
         rewrite (zsum_set f (callers s) i c y H)
     | H : nth_error (tasks s) ?i = Some ?c |- context [zsum ?f (set_nth ?i ?y (tasks s))] =>
         rewrite (zsum_set f (tasks s) i c y H)
     end; cbn [slotC slotT holdC holdT incC parkC pendC sigT_ addC aliveT c_pc t_pc zsum] in *; try lia
   | rewrite ?zsum_app;
     repeat match goal with
     | H : nth_error (callers s) ?i = Some ?c |- context [zsum ?f (set_nth ?i ?y (callers s))] =>
         rewrite (zsum_set f (callers s) i c y H)
     | H : nth_error (tasks s) ?i = Some ?c |- context [zsum ?f (set_nth ?i ?y (tasks s))] =>
         rewrite (zsum_set f (tasks s) i c y H)
     end; cbn [slotC slotT holdC holdT incC parkC pendC sigT_ addC aliveT c_pc t_pc zsum] in *; lia
   | try (eapply (todo_set (fun c => match c_pc c with CIdle => True
       | CWaiting => c_todo c = [] /\ c_waits c = true | CDone => c_todo c = []
       | _ => c_todo c <> [] end)); simpl; auto; congruence); auto ]).
  intros Hp. exfalso. apply zsum_pos in Hp. destruct Hp as (i & [p td w] & E & Hne).
  unfold parkC in Hne. simpl in Hne. destruct p; try congruence.
  match goal with H : forall i td w, ~ _ |- _ => apply (H i td w E) end.
Qed.

Lemma inv_steps n m s s' : steps n m s s' -> inv n s -> inv n s'.
Proof. induction 1 as [|m s s1 s2 _ IH Hs]; intros I; auto. eapply inv_step; [|exact Hs]; auto. Qed.

(** C04 *)
Lemma running_eq s : running s = zsum runT (tasks s).
Proof. unfold running. induction (tasks s) as [|t r IH]; simpl; auto. rewrite IH. reflexivity. Qed.

Lemma bound_l n progs m s : 0 <= n -> steps n m (initial progs) s -> running s <= n.
Proof.
  intros Hn H. pose proof (inv_steps _ _ _ _ H (inv_initial n progs Hn)) as I.
  pose proof (nonnegs (callers s) (tasks s)) as (?&?&?&?&?&?&?&?&?&?&?).
  pose proof (i_k _ _ I). pose proof (i_n _ _ I).
  assert (running s <= zsum slotT (tasks s)); [|lia].
  rewrite running_eq. apply zsum_le. intros [p ?]; destruct p; vm_compute; discriminate.
Qed.

(** Search in a list. *)
Lemma find_nth {A} (p : A -> bool) l :
  (exists i x, nth_error l i = Some x /\ p x = true) \/
  (forall i x, nth_error l i = Some x -> p x = false).
Proof.
  induction l as [|h t IH].
  - right. intros [|i] x E; discriminate.
  - destruct (p h) eqn:Eh; [left; exists O, h; auto|].
    destruct IH as [(i & x & E & Ep)|IH]; [left; exists (S i), x; auto|].
    right. intros [|i] x E; simpl in E; [injection E as <-; auto|eauto].
Qed.

Lemma zsum_zero {A} (f : A -> Z) l : (forall i x, nth_error l i = Some x -> f x = 0) -> zsum f l = 0.
Proof.
  induction l as [|h t IH]; intros H; simpl; auto.
  rewrite (H O h eq_refl). rewrite IH; auto. intros i x E. apply (H (S i) x E).
Qed.

(** C06: some step is enabled unless everything has ended. *)
Lemma progress_inv n s : 1 <= n -> inv n s -> (exists s', step n s s') \/ quiescent s.
Proof.
  intros Hn I. destruct I as [Ik Il In_ Is Iw It].
  destruct (locked s) eqn:El.
  - left. assert (H : 0 < zsum holdC (callers s) \/ 0 < zsum holdT (tasks s)).
    { pose proof (nonnegs (callers s) (tasks s)). lia. }
    destruct H as [H|H]; apply zsum_pos in H.
    + destruct H as (i & [p td w] & E & Hne). unfold holdC in Hne. simpl in Hne.
      destruct p; try congruence.
      * destruct (Z_lt_ge_dec (k s) n) as [Hk|Hk].
        -- eexists. eapply s_free; eauto.
        -- eexists. eapply s_full; eauto.
      * eexists. eapply s_inc; eauto.
      * eexists. eapply s_unlock; eauto.
    + destruct H as (i & [p x] & E & Hne). unfold holdT in Hne. simpl in Hne.
      destruct p; try congruence.
      * eexists. eapply s_dec; eauto.
      * eexists. eapply s_tunlock; eauto.
  - destruct (find_nth (fun c => match c_pc c with CParked | CWaiting | CDone => false | _ => true end)
                       (callers s)) as [(i & [p td w] & E & Hp)|HC].
    + left. pose proof (It _ _ E) as Htd. simpl in Htd, Hp. destruct p; try discriminate.
      * destruct td as [|x td].
        -- destruct w; eexists; [eapply s_wait|eapply s_end]; eauto.
        -- eexists. eapply s_call; eauto.
      * eexists. eapply s_lock; eauto.
      * destruct (Z_lt_ge_dec (k s) n) as [Hk|Hk]; eexists; [eapply s_free|eapply s_full]; eauto.
      * eexists. eapply s_relock; eauto.
      * eexists. eapply s_inc; eauto.
      * eexists. eapply s_unlock; eauto.
      * eexists. eapply s_add; eauto.
      * destruct td as [|x td]; [congruence|]. eexists. eapply s_spawn; eauto.
    + destruct (find_nth (fun t => match t_pc t with TEnd => false | _ => true end) (tasks s))
        as [(j & [p x] & E & Hp)|HT].
      * left. simpl in Hp. destruct p; try discriminate.
        -- eexists. eapply s_start; eauto.
        -- eexists. eapply s_return; eauto.
        -- eexists. eapply s_tlock; eauto.
        -- eexists. eapply s_dec; eauto.
        -- eexists. eapply s_tunlock; eauto.
        -- destruct (find_nth (fun c => match c_pc c with CParked => true | _ => false end) (callers s))
             as [(i & [p td w] & E' & Hp')|HN].
           ++ simpl in Hp'. destruct p; try discriminate. eexists. eapply s_signal; eauto.
           ++ eexists. eapply s_signal_none; eauto. intros i td w E'. apply HN in E'. discriminate.
        -- eexists. eapply s_done; eauto.
      * assert (HT' : forall j t, nth_error (tasks s) j = Some t -> t_pc t = TEnd).
        { intros j t E. apply HT in E. destruct (t_pc t); congruence. }
        assert (Z1 : zsum slotT (tasks s) = 0).
        { apply zsum_zero. intros i x E. unfold slotT. rewrite (HT' _ _ E). auto. }
        assert (Z2 : zsum sigT_ (tasks s) = 0).
        { apply zsum_zero. intros i x E. unfold sigT_. rewrite (HT' _ _ E). auto. }
        assert (Z3 : zsum aliveT (tasks s) = 0).
        { apply zsum_zero. intros i x E. unfold aliveT. rewrite (HT' _ _ E). auto. }
        assert (Z4 : zsum slotC (callers s) = 0).
        { apply zsum_zero. intros i x E. unfold slotC. apply HC in E. destruct (c_pc x); auto; discriminate. }
        assert (Z5 : zsum pendC (callers s) = 0).
        { apply zsum_zero. intros i x E. unfold pendC. apply HC in E. destruct (c_pc x); auto; discriminate. }
        assert (Z6 : zsum addC (callers s) = 0).
        { apply zsum_zero. intros i x E. unfold addC. apply HC in E. destruct (c_pc x); auto; discriminate. }
        destruct (find_nth (fun c => match c_pc c with CParked => true | _ => false end) (callers s))
          as [(i & [p td w] & E & Hp)|HN].
        { exfalso. simpl in Hp. destruct p; try discriminate.
          assert (0 < zsum parkC (callers s)).
          { pose proof (zsum_ge parkC (callers s) i _
              ltac:(intros [p' ? ?]; destruct p'; vm_compute; discriminate) E) as G. cbn in G. lia. }
          specialize (Is H). lia. }
        destruct (find_nth (fun c => match c_pc c with CWaiting => true | _ => false end) (callers s))
          as [(i & [p td w] & E & Hp)|HW].
        { left. simpl in Hp. destruct p; try discriminate. pose proof (It _ _ E) as [Ht Hw].
          simpl in Ht, Hw. subst. eexists. eapply s_waited; eauto. lia. }
        right. split; auto. intros i c E. pose proof (HC _ _ E) as H1. pose proof (HN _ _ E) as H2.
        pose proof (HW _ _ E) as H3. destruct (c_pc c); congruence.
Qed.

(** If a slot is free while somebody is parked, somebody is about to signal or to take it. *)
Lemma no_lost_wakeup_inv n s : inv n s ->
  (exists i td w, at_c s i CParked td w) -> k s < n ->
  (exists j x, at_t s j TUnlock x \/ at_t s j TSignal x) \/
  (exists i td w, at_c s i CWoken td w \/ at_c s i CCheck td w \/ at_c s i CInc td w).
Proof.
  intros I (i & td & w & E) Hk.
  assert (0 < zsum parkC (callers s)).
  { pose proof (zsum_ge parkC (callers s) i _
      ltac:(intros [p' ? ?]; destruct p'; vm_compute; discriminate) E) as G. cbn in G. lia. }
  pose proof (i_sig _ _ I H) as HS.
  assert (H' : 0 < zsum sigT_ (tasks s) \/ 0 < zsum pendC (callers s)) by lia.
  destruct H' as [H'|H']; apply zsum_pos in H'.
  - left. destruct H' as (j & [p x] & Ej & Hne). exists j, x. unfold sigT_ in Hne. simpl in Hne.
    destruct p; try congruence; auto.
  - right. destruct H' as (j & [p x b] & Ej & Hne). exists j, x, b. unfold pendC in Hne. simpl in Hne.
    destruct p; try congruence; auto.
Qed.

(** Termination. *)
Definition wCp (p : cpc) : Z :=
  match p with
  | CIdle => 12 | CWant => 11 | CWoken => 11 | CCheck => 10 | CInc => 9 | CUnlock => 8
  | CAdd => 7 | CSpawn => 6 | CParked => 5 | CWaiting => 2 | CDone => 0 end.
Definition wC (c : caller) : Z := 20 * Z.of_nat (length (c_todo c)) + wCp (c_pc c).
Lemma wC_eq p td w : wC (mkCaller p td w) = 20 * Z.of_nat (length td) + wCp p.
Proof. reflexivity. Qed.
Definition wT (t : task) : Z :=
  match t_pc t with
  | TReady => 13 | TRunning => 12 | TAfter => 11 | TDec => 10 | TUnlock => 9 | TSignal => 8
  | TDefer => 1 | TEnd => 0 end.
Definition meas (s : state) : Z := zsum wC (callers s) + zsum wT (tasks s).

Lemma meas_step n s s' : step n s s' -> meas s' + 1 <= meas s.
Proof.
  intros H. destruct H; unfold at_c, at_t, meas in *; simpl; rewrite ?zsum_app;
  repeat match goal with
  | H : nth_error (callers s) ?i = Some ?c |- context [zsum ?f (set_nth ?i ?y (callers s))] =>
      rewrite (zsum_set f (callers s) i c y H)
  | H : nth_error (tasks s) ?i = Some ?c |- context [zsum ?f (set_nth ?i ?y (tasks s))] =>
      rewrite (zsum_set f (tasks s) i c y H)
  end; rewrite ?wC_eq; cbn [wCp wT t_pc zsum length]; rewrite ?Nat2Z.inj_succ; lia.
Qed.

Lemma meas_nonneg s : 0 <= meas s.
Proof.
  unfold meas. assert (0 <= zsum wC (callers s)); [|assert (0 <= zsum wT (tasks s)); [|lia]].
  - apply zsum_nonneg. intros [p td w]. rewrite wC_eq. destruct p; cbn [wCp]; lia.
  - apply zsum_nonneg. intros [p x]. destruct p; vm_compute; discriminate.
Qed.

Lemma meas_steps n m s s' : steps n m s s' -> Z.of_nat m + meas s' <= meas s.
Proof.
  induction 1 as [|m s s1 s2 _ IH Hs]; [lia|]. apply meas_step in Hs. lia.
Qed.

Lemma meas_initial progs : meas (initial progs) = Z.of_nat (work progs).
Proof.
  unfold meas, initial. simpl. induction progs as [|p t IH]; simpl; auto.
  rewrite wC_eq. cbn [wCp]. lia.
Qed.

Lemma terminates_l n progs m s : steps n m (initial progs) s -> (m <= work progs)%nat.
Proof.
  intros H. apply meas_steps in H. rewrite meas_initial in H. pose proof (meas_nonneg s). lia.
Qed.

(** What has been run. *)
Definition notReady (t : task) : bool := match t_pc t with TReady => false | _ => true end.
Definition afterRun (t : task) : bool := match t_pc t with TReady | TRunning => false | _ => true end.

Record ghost (all : list nat) (s : state) : Prop := {
  g_all : Permutation (map t_id (tasks s) ++ flat_map c_todo (callers s)) all;
  g_st : Permutation (started s) (map t_id (filter notReady (tasks s)));
  g_fin : Permutation (finished s) (map t_id (filter afterRun (tasks s))) }.

Lemma flat_set_same cs : forall i c c', nth_error cs i = Some c -> c_todo c' = c_todo c ->
  flat_map c_todo (set_nth i c' cs) = flat_map c_todo cs.
Proof.
  induction cs as [|h t IH]; intros [|i] c c' E Ht; simpl in *; try discriminate.
  - injection E as ->. rewrite Ht. auto.
  - rewrite (IH i c c'); auto.
Qed.

Lemma flat_set_pop cs : forall i c c' x, nth_error cs i = Some c -> c_todo c = x :: c_todo c' ->
  Permutation (x :: flat_map c_todo (set_nth i c' cs)) (flat_map c_todo cs).
Proof.
  induction cs as [|h t IH]; intros [|i] c c' x E Ht; simpl in *; try discriminate.
  - injection E as ->. rewrite Ht. auto.
  - rewrite <- (IH i c c' x E Ht). symmetry. rewrite <- Permutation_middle. auto.
Qed.

Lemma map_set_id ts : forall j t t', nth_error ts j = Some t -> t_id t' = t_id t ->
  map t_id (set_nth j t' ts) = map t_id ts.
Proof.
  induction ts as [|h ts IH]; intros [|j] t t' E Ht; simpl in *; try discriminate.
  - injection E as ->. rewrite Ht. auto.
  - rewrite (IH j t t'); auto.
Qed.

Lemma filter_set_same (p : task -> bool) ts : forall j t t', nth_error ts j = Some t ->
  t_id t' = t_id t -> p t' = p t ->
  map t_id (filter p (set_nth j t' ts)) = map t_id (filter p ts).
Proof.
  induction ts as [|h ts IH]; intros [|j] t t' E Hi Hp; simpl in *; try discriminate.
  - injection E as ->. rewrite Hp. destruct (p t); simpl; congruence.
  - destruct (p h); simpl; rewrite (IH j t t'); auto.
Qed.

Lemma filter_set_new (p : task -> bool) ts : forall j t t', nth_error ts j = Some t ->
  p t = false -> p t' = true ->
  Permutation (map t_id (filter p ts) ++ [t_id t']) (map t_id (filter p (set_nth j t' ts))).
Proof.
  induction ts as [|h ts IH]; intros [|j] t t' E H1 H2; simpl in *; try discriminate.
  - injection E as ->. rewrite H1, H2. simpl. symmetry. apply Permutation_cons_append.
  - destruct (p h); simpl; eauto.
Qed.

Lemma ghost_step n all s s' : ghost all s -> step n s s' -> ghost all s'.
Proof.
  intros [G1 G2 G3] H. destruct H; unfold at_c, at_t in *; constructor; simpl;
  repeat match goal with
  | H : nth_error (callers s) ?i = Some ?c |- context [flat_map c_todo (set_nth ?i ?y (callers s))] =>
      rewrite (flat_set_same (callers s) i c y H) by reflexivity
  | H : nth_error (tasks s) ?i = Some ?c |- context [map t_id (set_nth ?i ?y (tasks s))] =>
      rewrite (map_set_id (tasks s) i c y H) by reflexivity
  | H : nth_error (tasks s) ?i = Some ?c |- context [map t_id (filter ?p (set_nth ?i ?y (tasks s)))] =>
      rewrite (filter_set_same p (tasks s) i c y H) by reflexivity
  end; auto.
  - rewrite map_app, <- app_assoc. simpl. rewrite <- G1. apply Permutation_app_head.
    eapply flat_set_pop; eauto.
  - rewrite filter_app. simpl. rewrite app_nil_r. auto.
  - rewrite filter_app. simpl. rewrite app_nil_r. auto.
  - rewrite G2. rewrite <- (filter_set_new notReady (tasks s) j _ (mkTask TRunning x) H); auto.
  - rewrite G3. rewrite <- (filter_set_new afterRun (tasks s) j _ (mkTask TAfter x) H); auto.
Qed.

Lemma ghost_initial progs : ghost (flat_map fst progs) (initial progs).
Proof.
  constructor; simpl; auto. induction progs as [|p t IH]; simpl; auto.
  apply Permutation_app_head; auto.
Qed.

Lemma ghost_steps n all m s s' : steps n m s s' -> ghost all s -> ghost all s'.
Proof. induction 1 as [|m s s1 s2 _ IH Hs]; intros I; auto. eapply ghost_step; [|exact Hs]; auto. Qed.

Lemma filter_all {A} (p : A -> bool) l : (forall j t, nth_error l j = Some t -> p t = true) -> filter p l = l.
Proof.
  induction l as [|h t IH]; intros H; simpl; auto.
  rewrite (H O h eq_refl). f_equal. apply IH. intros j x E. apply (H (S j) x E).
Qed.

Lemma tasks_end_logs all s : ghost all s -> (forall j t, nth_error (tasks s) j = Some t -> t_pc t = TEnd) ->
  flat_map c_todo (callers s) = [] -> Permutation (started s) all /\ Permutation (finished s) all.
Proof.
  intros [G1 G2 G3] HT Hc. rewrite Hc, app_nil_r in G1. split.
  - rewrite G2, filter_all; auto. intros j t E. unfold notReady. rewrite (HT _ _ E). auto.
  - rewrite G3, filter_all; auto. intros j t E. unfold afterRun. rewrite (HT _ _ E). auto.
Qed.

Lemma flat_todo_nil cs : (forall i c, nth_error cs i = Some c -> c_todo c = []) -> flat_map c_todo cs = [].
Proof.
  induction cs as [|h t IH]; intros H; simpl; auto. rewrite (H O h eq_refl). simpl.
  apply IH. intros i c E. apply (H (S i) c E).
Qed.

(** Every execution that cannot go on has run every task exactly once, whatever the number of
    callers. *)
Lemma completion_l n progs m s : 1 <= n -> steps n m (initial progs) s ->
  (forall s', ~ step n s s') ->
  quiescent s /\ Permutation (started s) (flat_map fst progs) /\
  Permutation (finished s) (flat_map fst progs) /\ k s = 0 /\ locked s = false.
Proof.
  intros Hn H Hst.
  pose proof (inv_steps _ _ _ _ H (inv_initial n progs ltac:(lia))) as I.
  destruct (progress_inv n s Hn I) as [[s' Hs]|Q]; [exfalso; eapply Hst; eauto|].
  split; auto. destruct Q as [QC QT].
  pose proof (ghost_steps _ _ _ _ _ H (ghost_initial progs)) as G.
  destruct (tasks_end_logs _ _ G QT) as [G1 G2].
  { apply flat_todo_nil. intros i c E. pose proof (i_todo _ _ I _ _ E) as Ht. rewrite (QC _ _ E) in Ht. auto. }
  split; auto. split; auto. split.
  - rewrite (i_k _ _ I).
    rewrite (zsum_zero slotC), (zsum_zero slotT); auto; intros i x E.
    + unfold slotT. rewrite (QT _ _ E). auto.
    + unfold slotC. rewrite (QC _ _ E). auto.
  - pose proof (i_lock _ _ I) as Hl.
    rewrite (zsum_zero holdC), (zsum_zero holdT) in Hl.
    + destruct (locked s); auto; discriminate.
    + intros i x E. unfold holdT. rewrite (QT _ _ E). auto.
    + intros i x E. unfold holdC. rewrite (QC _ _ E). auto.
Qed.

Lemma progress_l n progs m s : 1 <= n -> steps n m (initial progs) s ->
  (exists i c, nth_error (callers s) i = Some c /\ c_pc c <> CDone) -> exists s', step n s s'.
Proof.
  intros Hn H (i & c & E & Hc).
  pose proof (inv_steps _ _ _ _ H (inv_initial n progs ltac:(lia))) as I.
  destruct (progress_inv n s Hn I) as [Hs|[QC _]]; auto.
  exfalso. apply Hc. eapply QC; eauto.
Qed.

Lemma no_lost_wakeup_l n progs m s : 1 <= n -> steps n m (initial progs) s ->
  (exists i td w, at_c s i CParked td w) -> k s < n ->
  (exists j x, at_t s j TUnlock x \/ at_t s j TSignal x) \/
  (exists i td w, at_c s i CWoken td w \/ at_c s i CCheck td w \/ at_c s i CInc td w).
Proof.
  intros Hn H. apply no_lost_wakeup_inv.
  eapply inv_steps; eauto. apply inv_initial. lia.
Qed.

(** C05: one goroutine issues the Run calls and then Wait. *)
Definition single (s : state) : Prop :=
  exists c, callers s = [c] /\ c_waits c = true /\ (c_pc c = CDone -> wg s = 0).

Lemma single_step n s s' : inv n s -> single s -> step n s s' -> single s'.
Proof.
  intros I (c & Ec & Hw & Hd) H.
  pose proof (inv_step _ _ _ I H) as I'.
  assert (HT : c_pc c = CDone -> forall j t, nth_error (tasks s) j = Some t -> t_pc t = TEnd).
  { intros Hc j t E. pose proof (i_wg _ _ I) as Hwg. rewrite (Hd Hc), Ec in Hwg. simpl in Hwg.
    unfold addC in Hwg. rewrite Hc in Hwg.
    pose proof (zsum_ge aliveT (tasks s) j t ltac:(intros [p' ?]; destruct p'; vm_compute; discriminate) E) as G.
    unfold aliveT in G at 1. destruct (t_pc t); auto; lia. }
  assert (H1 : forall i x, nth_error (callers s) i = Some x -> i = 0%nat /\ c = x).
  { intros i x E. rewrite Ec in E. destruct i as [|i]; simpl in E; [|destruct i; discriminate].
    injection E as <-. auto. }
  clear I'.
  destruct H; unfold at_c, at_t in *;
  try match goal with E : nth_error (callers s) _ = Some _ |- _ => destruct (H1 _ _ E) as [-> ->] end;
  unfold single; simpl; rewrite Ec; simpl; simpl in Hw, Hd;
  try (eexists; split; [reflexivity|]; split; simpl; auto; intros; discriminate);
  try (exists c; split; auto; split; auto; intros Hc; exfalso; specialize (HT Hc _ _ H); discriminate).
  all: eexists; split; [reflexivity|]; split; simpl; auto.
Qed.

Lemma wait_l n prog m s : 1 <= n -> steps n m (initial [(prog, true)]) s ->
  (exists td w, at_c s 0 CDone td w) ->
  Permutation (started s) prog /\ Permutation (finished s) prog /\
  (forall j t, nth_error (tasks s) j = Some t -> t_pc t = TEnd).
Proof.
  intros Hn H (td & w & E).
  pose proof (inv_steps _ _ _ _ H (inv_initial n [(prog, true)] ltac:(lia))) as I.
  assert (HS : single s).
  { clear E I. remember (initial [(prog, true)]) as s0 eqn:E0. induction H as [|m s s1 s2 H IH Hs]; subst.
    - eexists. split; [reflexivity|]. simpl. split; [auto|discriminate].
    - eapply single_step; [|apply IH; auto|exact Hs]. eapply inv_steps; eauto. apply inv_initial; lia. }
  destruct HS as (c & Ec & Hw & Hd). unfold at_c in E. rewrite Ec in E. simpl in E. injection E as ->.
  simpl in Hd. specialize (Hd eq_refl).
  assert (HT : forall j t, nth_error (tasks s) j = Some t -> t_pc t = TEnd).
  { intros j t E. pose proof (i_wg _ _ I) as Hwg. rewrite Hd, Ec in Hwg. cbn in Hwg.
    pose proof (zsum_ge aliveT (tasks s) j t ltac:(intros [p' ?]; destruct p'; vm_compute; discriminate) E) as G.
    unfold aliveT in G at 1. destruct (t_pc t); auto; lia. }
  pose proof (ghost_steps _ _ _ _ _ H (ghost_initial [(prog, true)])) as G.
  simpl in G. rewrite app_nil_r in G.
  destruct (tasks_end_logs _ _ G HT) as [G1 G2]; auto.
  rewrite Ec. simpl. rewrite app_nil_r.
  pose proof (i_todo _ _ I 0%nat (mkCaller CDone td w)) as Ht. rewrite Ec in Ht. apply Ht. reflexivity.
Qed.

Lemma bound_nc n ncpu progs m s : 1 <= ncpu -> steps (newSingleQueue n ncpu) m (initial progs) s ->
  running s <= newSingleQueue n ncpu.
Proof.
  intros Hc H. eapply bound_l; eauto. unfold newSingleQueue. destruct (Z.leb_spec n 0); lia.
Qed.

Lemma steps_app n m1 m2 s1 s2 s3 : steps n m1 s1 s2 -> steps n m2 s2 s3 -> steps n (m2 + m1) s1 s3.
Proof. intros H1 H2. revert s1 m1 H1. induction H2; intros; simpl; auto. econstructor; eauto. Qed.

Lemma steps_cons n m s1 s2 s3 : step n s1 s2 -> steps n m s2 s3 -> steps n (m + 1) s1 s3.
Proof. intros H1 H2. eapply steps_app; eauto. econstructor; [constructor|auto]. Qed.

Lemma conc_prefix : exists m s, steps 1 m (initial [([7%nat], true); ([8%nat], false)]) s /\
  s = mkState [mkCaller CIdle [] true; mkCaller CParked [8%nat] false] [mkTask TUnlock 7] true 0 1 [7%nat] [7%nat].
Proof.
  eexists; eexists; split; [|reflexivity].
  eapply steps_cons; [apply (s_call 1 _ 0%nat 7%nat [] true); reflexivity|cbn].
  eapply steps_cons; [apply (s_lock 1 _ 0%nat [7%nat] true); reflexivity|cbn].
  eapply steps_cons; [apply (s_free 1 _ 0%nat [7%nat] true); reflexivity|cbn].
  eapply steps_cons; [apply (s_inc 1 _ 0%nat [7%nat] true); reflexivity|cbn].
  eapply steps_cons; [apply (s_unlock 1 _ 0%nat [7%nat] true); reflexivity|cbn].
  eapply steps_cons; [apply (s_add 1 _ 0%nat [7%nat] true); reflexivity|cbn].
  eapply steps_cons; [apply (s_spawn 1 _ 0%nat 7%nat [] true); reflexivity|cbn].
  eapply steps_cons; [apply (s_start 1 _ 0%nat 7%nat); reflexivity|cbn].
  eapply steps_cons; [apply (s_call 1 _ 1%nat 8%nat [] false); reflexivity|cbn].
  eapply steps_cons; [apply (s_lock 1 _ 1%nat [8%nat] false); reflexivity|cbn].
  eapply steps_cons; [apply (s_full 1 _ 1%nat [8%nat] false); [reflexivity|simpl; lia]|cbn].
  eapply steps_cons; [apply (s_return 1 _ 0%nat 7%nat); reflexivity|cbn].
  eapply steps_cons; [apply (s_tlock 1 _ 0%nat 7%nat); reflexivity|cbn].
  eapply steps_cons; [apply (s_dec 1 _ 0%nat 7%nat); reflexivity|cbn].
  apply steps_0.
Qed.

Lemma conc_parked_case_l :
  exists m s, steps 1 m (initial [([7%nat], true); ([8%nat], false)]) s /\
    at_c s 1 CParked [8%nat] false /\ k s < 1 /\ at_t s 0 TUnlock 7.
Proof.
  destruct conc_prefix as (m & s & H & ->). eexists; eexists. split; [exact H|].
  repeat split; reflexivity.
Qed.

Lemma conc_case_l :
  exists m s, steps 1 m (initial [([7%nat], true); ([8%nat], false)]) s /\ quiescent s /\
    finished s = [7%nat; 8%nat].
Proof.
  destruct conc_prefix as (m & s & H & ->).
  eexists; eexists; split; [eapply steps_app; [exact H|]|].
  - eapply steps_cons; [apply (s_tunlock 1 _ 0%nat 7%nat); reflexivity|cbn].
    eapply steps_cons; [apply (s_signal 1 _ 0%nat 7%nat 1%nat [8%nat] false); reflexivity|cbn].
    eapply steps_cons; [apply (s_relock 1 _ 1%nat [8%nat] false); reflexivity|cbn].
    eapply steps_cons; [apply (s_free 1 _ 1%nat [8%nat] false); reflexivity|cbn].
    eapply steps_cons; [apply (s_inc 1 _ 1%nat [8%nat] false); reflexivity|cbn].
    eapply steps_cons; [apply (s_unlock 1 _ 1%nat [8%nat] false); reflexivity|cbn].
    eapply steps_cons; [apply (s_add 1 _ 1%nat [8%nat] false); reflexivity|cbn].
    eapply steps_cons; [apply (s_spawn 1 _ 1%nat 8%nat [] false); reflexivity|cbn].
    eapply steps_cons; [apply (s_end 1 _ 1%nat); reflexivity|cbn].
    eapply steps_cons; [apply (s_start 1 _ 1%nat 8%nat); reflexivity|cbn].
    eapply steps_cons; [apply (s_return 1 _ 1%nat 8%nat); reflexivity|cbn].
    eapply steps_cons; [apply (s_tlock 1 _ 1%nat 8%nat); reflexivity|cbn].
    eapply steps_cons; [apply (s_dec 1 _ 1%nat 8%nat); reflexivity|cbn].
    eapply steps_cons; [apply (s_tunlock 1 _ 1%nat 8%nat); reflexivity|cbn].
    eapply steps_cons; [apply (s_signal_none 1 _ 1%nat 8%nat); [reflexivity|
      intros [|[|[|i]]] td w E; discriminate]|cbn].
    eapply steps_cons; [apply (s_done 1 _ 0%nat 7%nat); reflexivity|cbn].
    eapply steps_cons; [apply (s_done 1 _ 1%nat 8%nat); reflexivity|cbn].
    eapply steps_cons; [apply (s_wait 1 _ 0%nat); reflexivity|cbn].
    eapply steps_cons; [apply (s_waited 1 _ 0%nat); reflexivity|cbn].
    apply steps_0.
  - split; [|reflexivity]. split.
    + intros [|[|[|i]]] c E; simpl in E; try discriminate; injection E as <-; reflexivity.
    + intros [|[|[|i]]] c E; simpl in E; try discriminate; injection E as <-; reflexivity.
Qed.
